(* C55: progress of the inner (Newton) iteration while its line searches succeed, in exact arithmetic. *)
From Verif Require Export PropsProx.
Local Open Scope R_scope.

(* ---------- specification ---------- *)
(* the norm of the penalised natural residual, which the convergence test uses *)
Definition outer_error (P : QP) (o : params R) (u : pt) : R :=
  nrm P (mkPt (lagr P (pz u) (pl u) (pv u)) (fun k => ch P k - times (n_z P) (cG P) (pz u) k)
              (fun k => pnat (p_alpha o) (margin P (pz u) k) (pv u k))).
(* no line search among these events failed *)
Definition all_accepted (l : list (ghost R)) : Prop :=
  forall x dx cm m0 t j acc x', In (GStep x dx cm m0 t j acc x') l -> acc = true.
(* the guaranteed relative decrease: 2 * eta * (the shortest step that is tested) *)
Definition decrease_rate (o : params R) : R := 2 * p_eta o * p_beta o ^ (Z.to_nat (p_max_ls o) - 1).

(* ---------- sequences with a windowed decrease, latest first ---------- *)
Definition windowed (q : R) (L : list R) : Prop :=
  forall p, (S p < length L)%nat -> exists s, (s < 5)%nat /\ (S (p + s) < length L)%nat /\
    nth p L 0 <= nth (S (p + s)) L 0 - q * nth (S p) L 0.
Lemma windowed_cons q m L : windowed q L -> (L = [] \/ exists s, (s < 5)%nat /\ (s < length L)%nat /\
    m <= nth s L 0 - q * nth 0 L 0) -> windowed q (m :: L).
Proof.
  intros W H [|p] Hp; cbn [length] in Hp.
  - destruct H as [->|(s & S1 & S2 & S3)]; [cbn in Hp; lia|]. exists s. cbn [length nth]. rewrite Nat.add_0_l.
    split; [exact S1|]. split; [lia|]. exact S3.
  - destruct (W p) as (s & S1 & S2 & S3); [lia|]. exists s. split; [exact S1|]. split; [cbn [length]; lia|].
    exact S3.
Qed.
Lemma windowed_first q L : 0 <= q -> (forall p, (0 < p < length L)%nat -> 0 <= nth p L 0) -> windowed q L ->
  forall i p, (p < length L)%nat -> (length L - 1 - p)%nat = i -> nth p L 0 <= nth (length L - 1) L 0.
Proof.
  intros Hq Hp W i. induction i as [i IH] using lt_wf_ind. intros p H1 H2.
  destruct (Nat.eq_dec p (length L - 1)) as [->|N]; [lra|].
  destruct (W p) as (s & S1 & S2 & S3); [lia|].
  assert (K : nth (S (p + s)) L 0 <= nth (length L - 1) L 0) by (eapply IH; [|exact S2|reflexivity]; lia).
  assert (0 <= q * nth (S p) L 0) by (apply Rmult_le_pos; [exact Hq|apply Hp; lia]). lra.
Qed.
Lemma windowed_descent q e L : 0 <= q -> 0 <= e -> (forall p, (0 < p < length L)%nat -> e <= nth p L 0) -> windowed q L ->
  forall j p, (p < length L)%nat -> (5 * j < length L - 1 - p + 5)%nat ->
    nth p L 0 <= nth (length L - 1) L 0 - q * e * INR j.
Proof.
  intros Hq He Hp W j. induction j as [|j IH]; intros p H1 H2.
  - cbn [INR]. rewrite Rmult_0_r, Rminus_0_r. eapply windowed_first; [exact Hq| |exact W|exact H1|reflexivity].
    intros i Hi. specialize (Hp i Hi). lra.
  - destruct (W p) as (s & S1 & S2 & S3); [lia|].
    assert (K : nth (S (p + s)) L 0 <= nth (length L - 1) L 0 - q * e * INR j) by (apply IH; lia).
    assert (q * e <= q * nth (S p) L 0) by (apply Rmult_le_compat_l; [exact Hq|apply Hp; lia]).
    rewrite S_INR. lra.
Qed.
Lemma monotone_descent q L : 0 <= q <= 1 -> 
  (forall p, (S p < length L)%nat -> nth p L 0 <= (1 - q) * nth (S p) L 0) ->
  forall i p, (p < length L)%nat -> (length L - 1 - p)%nat = i -> nth p L 0 <= (1 - q) ^ i * nth (length L - 1) L 0.
Proof.
  intros Hq W i. induction i as [|i IH]; intros p H1 H2.
  - replace p with (length L - 1)%nat by lia. cbn. lra.
  - assert (K : nth (S p) L 0 <= (1 - q) ^ i * nth (length L - 1) L 0) by (apply IH; lia).
    specialize (W p ltac:(lia)). cbn [pow].
    assert ((1 - q) * nth (S p) L 0 <= (1 - q) * ((1 - q) ^ i * nth (length L - 1) L 0)) by (apply Rmult_le_compat_l; lra).
    lra.
Qed.

(* ---------- the Fischer-Burmeister function against the minimum ---------- *)
Lemma phi_pnat alpha a b : 0 < alpha < 1 -> Rabs (phi alpha a b) <= 4 * Rabs (pnat alpha a b).
Proof.
  intro Ha.
  assert (W : forall a b, a <= b -> Rabs (phi alpha a b) <= 4 * Rabs (pnat alpha a b)).
  { clear a b. intros a b Hab. unfold phi, pnat. rewrite (Rmin_left a b Hab).
    destruct (Rle_dec 0 a) as [Pa|Na].
    - rewrite (Rmax_right 0 a), (Rmax_right 0 b) by lra.
      assert (Q : 0 <= (1 - alpha) * a * b) by (apply Rmult_le_pos; [apply Rmult_le_pos; lra|lra]).
      assert (S1 : b <= sqrt (a * a + b * b)).
      { apply Rsqr_incr_0_var; [|apply sqrt_pos]. unfold Rsqr. rewrite sqrt_sqrt by nra. nra. }
      assert (S2 : sqrt (a * a + b * b) <= a + b).
      { rewrite <- (sqrt_square (a + b)) by lra. apply sqrt_le_1_alt. nra. }
      assert (0 <= alpha * (a + b - sqrt (a * a + b * b)) <= alpha * a).
      { split; [apply Rmult_le_pos; lra|apply Rmult_le_compat_l; lra]. }
      assert (0 <= alpha * a) by (apply Rmult_le_pos; lra).
      rewrite !Rabs_pos_eq by lra. lra.
    - rewrite (Rmax_left 0 a) by lra. rewrite !Rmult_0_r, !Rmult_0_l, !Rplus_0_r, !Rabs_mult, (Rabs_pos_eq alpha), (Rabs_left a) by lra.
      assert (S1 : Rabs b <= sqrt (a * a + b * b)).
      { rewrite <- (sqrt_square (Rabs b)) by apply Rabs_pos. apply sqrt_le_1_alt. rewrite <- Rabs_mult, Rabs_pos_eq; nra. }
      assert (S2 : sqrt (a * a + b * b) <= - a + Rabs b).
      { rewrite <- (sqrt_square (- a + Rabs b)) by (assert (K := Rabs_pos b); lra). apply sqrt_le_1_alt.
        assert (K : Rabs b * Rabs b = b * b) by (rewrite <- Rabs_mult, Rabs_pos_eq; nra).
        assert (0 <= - a * Rabs b) by (apply Rmult_le_pos; [lra|apply Rabs_pos]). nra. }
      assert (K1 : Rabs (a + b - sqrt (a * a + b * b)) <= 4 * - a).
      { unfold Rabs in *. destruct (Rcase_abs b); destruct (Rcase_abs (a + b - sqrt (a * a + b * b))); lra. }
      replace (4 * (alpha * - a)) with (alpha * (4 * - a)) by ring. apply Rmult_le_compat_l; lra. }
  destruct (Rle_dec a b) as [H|H]; [apply W; exact H|].
  rewrite phi_sym. replace (pnat alpha a b) with (pnat alpha b a); [apply W; lra|].
  unfold pnat. rewrite Rmin_comm. ring.
Qed.
Lemma nrm_scale_le P c (u w : pt) : 0 <= c -> 
  (forall i, (i < n_z P)%nat -> Rabs (pz u i) <= c * Rabs (pz w i)) ->
  (forall i, (i < n_l P)%nat -> Rabs (pl u i) <= c * Rabs (pl w i)) ->
  (forall i, (i < n_v P)%nat -> Rabs (pv u i) <= c * Rabs (pv w i)) -> nrm P u <= c * nrm P w.
Proof.
  intros Hc A B C. apply nrm_le_sq; [apply Rmult_le_pos; [exact Hc|apply nrm_pos]|].
  replace (c * nrm P w * (c * nrm P w)) with (c * c * (nrm P w * nrm P w)) by ring. rewrite nrm_sq. unfold ip.
  assert (S : forall a b, Rabs a <= c * Rabs b -> a * a <= c * c * (b * b)).
  { intros a b H. rewrite <- (Rabs_pos_eq (a * a)), <- (Rabs_pos_eq (b * b)), !Rabs_mult by apply Rle_0_sqr.
    replace (c * c * (Rabs b * Rabs b)) with ((c * Rabs b) * (c * Rabs b)) by ring.
    apply Rmult_le_compat; try apply Rabs_pos; exact H. }
  rewrite !Rmult_plus_distr_l, <- !rsum_scal. repeat apply Rplus_le_compat; apply rsum_le; intros i Hi; apply S; auto.
Qed.

Lemma merits_skip (ms : list (ghost R)) : Forall (fun g => exists xp mp, g = GMerit xp mp) ms ->
  forall c, fold_left upd ms c = c.
Proof. induction 1 as [|g ms (xp & mp & ->) _ IH]; intro c; [reflexivity|]. cbn [fold_left upd]. apply IH. Qed.
Lemma merit_is (s : rsd R) : rsd_merit Rops s = 1 / 2 * (rsd_norm Rops s * rsd_norm Rops s).
Proof. unfold rsd_merit, o_half. cbn. unfold Rdec; cbn. lra. Qed.

Section Run.
  Context {LA : LinAlg R} {P : QP} {o : params R} {x : var R} {el : R} {r : solve_result R}
          {D : Type} {DI : DataI R D} {d : D} {pinit : R -> R -> var R -> var R -> res bool}
          {pst : R -> R -> var R -> var R -> rsd R -> var R} {stale : rsd R} {w : ws R}.
  Hypothesis RC : rcall LA P o x el r D DI d pinit pst stale w.
  Notation nz := (n_z P). Notation nl := (n_l P). Notation nv := (n_v P).
  Notation vok := (var_ok nz nl nv).
  Notation pb := (prob_of Rops DI d nz nl nv pinit pst o).
  Notation itol0 := (itol0_of Rops DI d nz nl nv o x pinit pst).
  Notation ones := (pones Rops pb nz nl nv).
  Notation evs c tr := (trace_ok Rops o pb (@vm P) itol0 ones c tr).
  Hypothesis Hb : 0 < p_beta o <= 1.
  Hypothesis He : 0 <= p_eta o < 1 / 2.
  Hypothesis Ht : 0 <= p_inner_tol_min o.
  Hypothesis Hl : (1 <= p_max_ls o)%Z.
  Notation q := (decrease_rate o).
  Notation tm := (p_inner_tol_min o).
  Notation mer xb y := (rsd_merit Rops (pb_inner pb y xb)).

  Lemma pow_mono i j : (i <= j)%nat -> p_beta o ^ j <= p_beta o ^ i.
  Proof.
    intro H. replace j with (i + (j - i))%nat by lia. rewrite pow_add.
    assert (P1 : 0 < p_beta o ^ i) by (apply pow_lt; lra).
    assert (P2 : p_beta o ^ (j - i) <= 1).
    { clear P1. induction (j - i)%nat as [|n IH]; cbn [pow]; [lra|].
      assert (0 < p_beta o ^ n) by (apply pow_lt; lra). 
      assert (p_beta o * p_beta o ^ n <= 1 * p_beta o ^ n) by (apply Rmult_le_compat_r; lra). lra. }
    assert (p_beta o ^ i * p_beta o ^ (j - i) <= p_beta o ^ i * 1) by (apply Rmult_le_compat_l; lra). lra.
  Qed.
  Lemma rate_pos : 0 <= q <= 1.
  Proof.
    unfold decrease_rate. assert (K := pow_mono 0 (Z.to_nat (p_max_ls o) - 1) ltac:(lia)). cbn [pow] in K.
    assert (0 < p_beta o ^ (Z.to_nat (p_max_ls o) - 1)) by (apply pow_lt; lra).
    assert (0 <= 2 * p_eta o * p_beta o ^ (Z.to_nat (p_max_ls o) - 1)) by (apply Rmult_le_pos; lra).
    assert (2 * p_eta o * p_beta o ^ (Z.to_nat (p_max_ls o) - 1) <= 1 * 1) by (apply Rmult_le_compat; lra). lra.
  Qed.
  Lemma mer_pos xb y : 0 <= mer xb y.
  Proof. rewrite merit_is. assert (K := Rle_0_sqr (rsd_norm Rops (pb_inner pb y xb))). unfold Rsqr in K. lra. Qed.

  Definition good (xb : var R) (c : ctx R) : Prop :=
    windowed q (mer xb (c_x c) :: c_merits c) /\
    (p_nonmonotone o = false -> forall p, (S p < length (mer xb (c_x c) :: c_merits c))%nat ->
       nth p (mer xb (c_x c) :: c_merits c) 0 <= (1 - q) * nth (S p) (mer xb (c_x c) :: c_merits c) 0) /\
    Forall (fun m => 1 / 2 * (tm * tm) <= m) (c_merits c) /\
    nth (length (c_merits c)) (mer xb (c_x c) :: c_merits c) 0 = mer xb xb.

  Lemma good_run xb y l xe : inner_run xb y l xe -> forall c rest, c_x c = y -> c_center c = xb ->
    evs c (l ++ rest) -> all_accepted l -> good xb c ->
    good xb (fold_left upd l c) /\ c_x (fold_left upd l c) = xe /\
    length (c_merits (fold_left upd l c)) = (length (c_merits c) + count is_step l)%nat.
  Proof.
    induction 1 as [y|y Ei Eo|y Ei Eo ms dx cm m0 t j acc x' l xe F H IH]; intros c rest Cx Cc EV AC G.
    - cbn. rewrite Nat.add_0_r. auto.
    - cbn [fold_left upd c_x c_merits]. rewrite count_cons, count_nil. cbn [is_step]. rewrite !Nat.add_0_r. auto.
    - set (l1 := GInner y Ei Eo :: GLin y xb :: ms) in *.
      assert (EL : GInner y Ei Eo :: GLin y xb :: ms ++ GStep y dx cm m0 t j acc x' :: l =
                   (l1 ++ [GStep y dx cm m0 t j acc x']) ++ l) by (unfold l1; cbn [app]; rewrite <- app_assoc; reflexivity).
      rewrite EL in *.
      pose proof (EV [GInner y Ei Eo] (GLin y xb) (ms ++ GStep y dx cm m0 t j acc x' :: l ++ rest)) as KL.
      pose proof (EV l1 (GStep y dx cm m0 t j acc x') (l ++ rest)) as KS.
      specialize (KL ltac:(rewrite <- EL; cbn [app]; rewrite <- app_assoc; reflexivity)).
      specialize (KS ltac:(rewrite <- !app_assoc; reflexivity)).
      set (c1 := fold_left upd l1 c) in *.
      assert (M1 : c_merits c1 = c_merits c /\ c_x c1 = c_x c /\ c_center c1 = c_center c).
      { unfold c1, l1. cbn [fold_left]. rewrite (merits_skip ms F). cbn [upd c_merits c_x c_center]. auto. }
      destruct M1 as (M1 & M2 & M3).
      cbn [fold_left upd ev_ok] in KL. destruct KL as (_ & _ & _ & _ & _ & tol & _ & ST).
      unfold inner_stop in ST. apply orb_false_elim in ST. destruct ST as [_ ST]. apply Rleb_false in ST.
      cbn [ev_ok] in KS. destruct KS as (_ & _ & _ & _ & _ & ms' & m' & S1 & S2 & S3 & S4 & S5 & S6 & S7 & S8 & S9 & S10 & S11).
      rewrite M3, Cc in S2, S10.
      assert (AT : acc = true).
      { eapply (AC y dx cm m0 t j acc x'). apply in_or_app; left. apply in_or_app; right. left. reflexivity. }
      rewrite AT in S10. destruct S10 as [J AR]. unfold armijo in AR. apply Rleb_true in AR.
      rewrite (beta_pow_is o) in S8. change (o_one Rops) with 1 in S8. rewrite Rmult_1_l in S8.
      assert (TM : p_beta o ^ (Z.to_nat (p_max_ls o) - 1) <= t) by (rewrite S8; apply pow_mono; lia).
      assert (CP : 0 <= cm) by (rewrite S2; apply mer_pos).
      assert (DEC : mer xb x' <= m0 - q * cm).
      { eapply Rle_trans; [exact AR|]. change (o_two Rops) with (Rdec 2 0) || idtac. unfold decrease_rate.
        assert (2 * p_eta o * p_beta o ^ (Z.to_nat (p_max_ls o) - 1) * cm <= 2 * t * p_eta o * cm).
        { apply Rmult_le_compat_r; [exact CP|].
          replace (2 * t * p_eta o) with (2 * p_eta o * t) by ring. apply Rmult_le_compat_l; [lra|exact TM]. }
        revert AR. cbn [o_sub o_mul Rops]. unfold o_two. cbn [o_add o_one o_dec Rops]. unfold Rdec; cbn. lra. }
      set (c2 := upd c1 (GStep y dx cm m0 t j acc x')) in *.
      assert (C2 : fold_left upd (l1 ++ [GStep y dx cm m0 t j acc x']) c = c2)
        by (rewrite fold_left_app; reflexivity).
      rewrite fold_left_app, C2.
      assert (EC : cm = mer xb (c_x c)) by (rewrite S2, Cx; reflexivity).
      assert (G2 : good xb c2).
      { destruct G as (W1 & W2 & W3 & W4). unfold good, c2. cbn [upd c_x c_merits]. rewrite M1.
        assert (LE : 1 / 2 * (tm * tm) <= cm).
        { rewrite S2, merit_is. assert (tm * tm <= rsd_norm Rops (pb_inner pb y xb) * rsd_norm Rops (pb_inner pb y xb))
            by (apply Rmult_le_compat; lra). lra. }
        split; [|split; [|split]].
        - apply windowed_cons; [rewrite EC; exact W1|]. right. cbn [nth].
          destruct (p_nonmonotone o).
          + rewrite S3 in S4. unfold InsertMerit in S4. cbn [MaxMerit] in S4.
            assert (IN : In m0 (cm :: firstn 4 (buf_of Rops c1))) by (rewrite S4; apply max_element_in).
            destruct IN as [IN|IN].
            * exists 0%nat. cbn [length nth]. split; [lia|]. split; [lia|]. lra.
            * apply (In_nth _ _ 0) in IN. destruct IN as (n & N1 & N2).
              rewrite firstn_length in N1. unfold buf_of in N2. rewrite nth_firstn_lt in N2 by lia.
              rewrite nth_firstn_lt in N2 by lia. rewrite M1 in N2.
              destruct (Nat.lt_ge_cases n (length (c_merits c))) as [LN|LN].
              -- rewrite app_nth1 in N2 by exact LN. exists (S n). cbn [length nth]. split; [lia|]. split; [lia|].
                 rewrite N2. exact DEC.
              -- rewrite app_nth2 in N2 by exact LN. rewrite nth_repeat in N2. exists 0%nat. cbn [length nth].
                 split; [lia|]. split; [lia|]. change (o_zero Rops) with 0 in N2. lra.
          + exists 0%nat. cbn [length nth]. split; [lia|]. split; [lia|]. rewrite S4 in DEC. exact DEC.
        - intros NM [|p] Hp; cbn [nth].
          + rewrite NM in S4. rewrite S4 in DEC. lra.
          + specialize (W2 NM p). rewrite <- EC in W2. apply W2. cbn [length] in Hp |- *. lia.
        - constructor; assumption.
        - cbn [length nth]. rewrite EC. exact W4. }
      destruct (IH c2 rest) as (I1 & I2 & I3); try reflexivity.
      + unfold c2. cbn [upd c_center]. rewrite M3. exact Cc.
      + rewrite <- C2. apply (evs_app (P:=P) (o:=o) (x:=x) (DI:=DI) (d:=d) (pinit:=pinit) (pst:=pst)). 
        rewrite app_assoc. exact EV.
      + intros a1 a2 a3 a4 a5 a6 a7 a8 HI. eapply AC. apply in_or_app. right. exact HI.
      + exact G2.
      + split; [exact I1|]. split; [exact I2|]. rewrite I3. unfold c2. cbn [upd c_merits length]. rewrite M1.
        unfold l1. cbn [app]. rewrite !count_cons, !count_app, !count_cons, count_nil. cbn [is_step].
        rewrite (count_none is_step ms); [lia|]. eapply Forall_impl; [|exact F]. intros g (xp & mp & ->). reflexivity.
  Qed.
  Lemma inner_vm xb y l xe : inner_run xb y l xe -> @vm P y -> forall c rest, evs c (l ++ rest) -> @vm P xe.
  Proof.
    induction 1 as [y|y Ei Eo|y Ei Eo ms dx cm m0 t j acc x' l xe F H IH]; intros VY c rest EV; try exact VY.
    assert (EL : (GInner y Ei Eo :: GLin y xb :: ms ++ GStep y dx cm m0 t j acc x' :: l) ++ rest =
              (GInner y Ei Eo :: GLin y xb :: ms) ++ GStep y dx cm m0 t j acc x' :: (l ++ rest))
        by (cbn [app]; rewrite <- app_assoc; reflexivity).
    rewrite EL in EV. pose proof (EV _ _ _ eq_refl) as K. cbn [ev_ok] in K. destruct K as (_ & _ & _ & _ & V' & _).
    apply (IH V' (fold_left upd ((GInner y Ei Eo :: GLin y xb :: ms) ++ [GStep y dx cm m0 t j acc x']) c) rest).
    apply (evs_app (P:=P) (o:=o) (x:=x) (DI:=DI) (d:=d) (pinit:=pinit) (pst:=pst)).
    rewrite <- app_assoc. exact EV.
  Qed.
End Run.

(* ---------------------------------------------------------------- C55 *)
(* A subproblem of a run, centred at xb, reaches the point xe after k Newton steps (not necessarily its
   last) whose line searches all succeeded.  Any problem, any options. *)
Theorem C55_inner_progress : forall LA P o x el r, solves LA P o x el r ->
  forall pre prev tol Ek xb l xe rest,
  sr_trace r = pre ++ GSub prev tol Ek xb :: l ++ rest -> inner_run xb xb l xe -> all_accepted l ->
  let E u := inner_error P o u xb in let k := count is_step l in let q := decrease_rate o in
  0 < q < 1 /\
  (* the residual of the subproblem never exceeds its value at the centre, which is at most four
     times the residual of the problem there *)
  E xe <= E xb /\ E xb <= 4 * Ek /\ Ek = outer_error P o (pt_of xb) /\
  (* with the monotone line search it decays linearly *)
  (p_nonmonotone o = false -> E xe * E xe <= (1 - q) ^ k * (E xb * E xb)) /\
  (* with either, the number of steps is bounded *)
  q * (p_inner_tol_min o * p_inner_tol_min o) * INR ((k + 4) / 5) <= E xb * E xb.
Proof.
  intros LA P o x el r call pre prev tol Ek xb l xe rest ET IR AC. cbv zeta.
  pose proof (solve_admissible _ _ _ _ _ _ call) as AD. pose proof (solve_alpha _ _ _ _ _ _ call) as Ha.
  assert (Hb : 0 < p_beta o <= 1).
  { pose proof (between_R _ _ _ (ad_beta _ _ AD)) as K. revert K. cbn. unfold Rdec; cbn. lra. }
  assert (He : 0 < p_eta o < 1 / 2).
  { pose proof (between_R _ _ _ (ad_eta _ _ AD)) as K. revert K. cbn. unfold Rdec; cbn. lra. }
  pose proof (ad_ls _ _ AD) as Hl. destruct (delta_in _ _ _ _ _ _ call) as (_ & Ht & _).
  destruct (solves_rcall _ _ _ _ _ _ call) as (D & DI & d & pinit & pst & stale & w & RC).
  pose proof (event_vm RC) as EV; rewrite (start_is RC) in EV.
  pose proof (EV pre _ _ ET) as KS. cbn [ev_ok] in KS. destruct KS as (_ & EX & VX & EK & _).
  set (c := after (start_at P x) pre) in *. set (c0 := upd c (GSub prev tol Ek xb)).
  set (pb := prob_of Rops DI d (n_z P) (n_l P) (n_v P) pinit pst o) in *.
  assert (EV0 : trace_ok Rops o pb (@vm P) (itol0_of Rops DI d (n_z P) (n_l P) (n_v P) o x pinit pst)
                  (pones Rops pb (n_z P) (n_l P) (n_v P)) c0 (l ++ rest)).
  { unfold c0, c, after. replace (upd (fold_left upd pre (start_ctx (start_at P x))) (GSub prev tol Ek xb)) with
      (fold_left upd (pre ++ [GSub prev tol Ek xb]) (start_ctx (start_at P x))) by (rewrite fold_left_app; reflexivity).
    apply (evs_app (P:=P) (o:=o) (x:=x) (DI:=DI) (d:=d) (pinit:=pinit) (pst:=pst)).
    intros p g s E. unfold pb. apply (EV p g s). rewrite ET, <- E, <- app_assoc. reflexivity. }
  assert (RP : 0 < decrease_rate o).
  { unfold decrease_rate. apply Rmult_lt_0_compat; [lra|]. apply pow_lt. lra. }
  assert (R1 : decrease_rate o < 1).
  { unfold decrease_rate. assert (K := pow_mono Hb 0 (Z.to_nat (p_max_ls o) - 1) ltac:(lia)). cbn [pow] in K.
    assert (0 < p_beta o ^ (Z.to_nat (p_max_ls o) - 1)) by (apply pow_lt; lra).
    assert (2 * p_eta o * p_beta o ^ (Z.to_nat (p_max_ls o) - 1) <= 2 * p_eta o * 1) by (apply Rmult_le_compat_l; lra). lra. }
  assert (G0 : good (P:=P) (o:=o) (DI:=DI) (d:=d) (pinit:=pinit) (pst:=pst) xb c0).
  { unfold good, c0. cbn [upd c_x c_merits length]. split; [intros p Hp; cbn in Hp; lia|].
    split; [intros _ p Hp; cbn in Hp; lia|]. split; [constructor|reflexivity]. }
  destruct (good_run (P:=P) (o:=o) (x:=x) (DI:=DI) (d:=d) (pinit:=pinit) (pst:=pst) Hb ltac:(lra) ltac:(lra) Hl
             xb xb l xe IR c0 rest eq_refl eq_refl EV0 AC G0) as ((W1 & W2 & W3 & W4) & CX & CL).
  set (c1 := fold_left upd l c0) in *. fold pb in W1, W2, W4. rewrite CX in W1, W2, W4.
  set (m1 := rsd_merit Rops (pb_inner pb xe xb)) in *. set (ms := c_merits c1) in *.
  assert (VE : @vm P xe).
  { exact (inner_vm (P:=P) (o:=o) (x:=x) (DI:=DI) (d:=d) (pinit:=pinit) (pst:=pst) xb xb l xe IR VX c0 rest EV0). }
  assert (EE : forall y, @vm P y -> rsd_merit Rops (pb_inner pb y xb) = 1 / 2 * (inner_error P o y xb * inner_error P o y xb)).
  { intros y Vy. rewrite merit_is. unfold pb. rewrite (error_is RC y xb Vy (proj1 VX)). reflexivity. }
  set (L := m1 :: ms) in *. assert (LL : length L = S (length ms)) by reflexivity.
  assert (LK : length ms = count is_step l) by (rewrite CL; reflexivity).
  assert (P0 : forall p, (0 < p < length L)%nat -> 1 / 2 * (p_inner_tol_min o * p_inner_tol_min o) <= nth p L 0).
  { intros p Hp. destruct p as [|p]; [lia|]. unfold L. cbn [nth]. rewrite Forall_forall in W3. apply W3. apply nth_In. lia. }
  assert (TT : 0 <= p_inner_tol_min o * p_inner_tol_min o) by apply Rle_0_sqr.
  assert (L0 : nth (length L - 1) L 0 = rsd_merit Rops (pb_inner pb xb xb)) by (rewrite LL; replace (S (length ms) - 1)%nat with (length ms) by lia; exact W4).
  split; [lra|]. split; [|split; [|split; [|split]]].
  - assert (K : nth 0 L 0 <= nth (length L - 1) L 0).
    { eapply (windowed_first (decrease_rate o)); [lra| |exact W1|rewrite LL; lia|reflexivity].
      intros p Hp. specialize (P0 p Hp). lra. }
    rewrite L0 in K. unfold L, m1 in K. cbn [nth] in K. rewrite (EE xe VE), (EE xb VX) in K.
    apply Rsqr_incr_0_var; [unfold Rsqr; lra|apply nrm_pos].
  - assert (EP : Ek = outer_error P o (pt_of xb)).
    { rewrite EK.
      pose proof (kkt_residual_R DI d P (rc_ex _ _ _ _ _ _ _ _ _ _ _ _ _ RC) (p_alpha o) xb (proj1 VX)) as K.
      rewrite (br_resid Rops _ _ _ _ _ _ _ _ _ _ _ _ _ (rc_cd _ _ _ _ _ _ _ _ _ _ _ _ _ RC)) in K by exact (proj1 VX).
      apply (f_equal (fun q => match q with Ok a => a | _ => 0 end)) in K. cbv beta iota in K. fold pb in K. rewrite K.
      unfold outer_error, nrm, ip, sumsq; cbn [pz pl pv pt_of]. apply (f_equal sqrt). apply (f_equal2 Rplus); [reflexivity|].
      apply rsum_ext. intros i Hi. unfold pnat_v. rewrite (proj2 VX i Hi). reflexivity. }
    rewrite EP. unfold inner_error, outer_error. apply nrm_scale_le; [lra| | |]; intros i Hi; unfold sub_at, gap, pt_of; cbn [pz pl pv].
    + match goal with |- Rabs ?a <= 4 * Rabs ?b => replace a with b by ring; assert (K := Rabs_pos b); lra end.
    + match goal with |- Rabs ?a <= 4 * Rabs ?b => replace a with b by ring; assert (K := Rabs_pos b); lra end.
    + match goal with |- Rabs (phi _ ?a _) <= _ => replace a with (margin P (rg (v_z xb)) i) by ring end.
      apply phi_pnat. exact Ha.
  - rewrite EK.
    pose proof (kkt_residual_R DI d P (rc_ex _ _ _ _ _ _ _ _ _ _ _ _ _ RC) (p_alpha o) xb (proj1 VX)) as K.
    rewrite (br_resid Rops _ _ _ _ _ _ _ _ _ _ _ _ _ (rc_cd _ _ _ _ _ _ _ _ _ _ _ _ _ RC)) in K by exact (proj1 VX).
    apply (f_equal (fun q => match q with Ok a => a | _ => 0 end)) in K. cbv beta iota in K. fold pb in K. rewrite K.
    unfold outer_error, nrm, ip, sumsq; cbn [pz pl pv pt_of]. apply (f_equal sqrt). apply (f_equal2 Rplus); [reflexivity|].
    apply rsum_ext. intros i Hi. unfold pnat_v. rewrite (proj2 VX i Hi). reflexivity.
  - intro NM. assert (K := monotone_descent (decrease_rate o) L ltac:(lra) (W2 NM) (length L - 1 - 0) 0 ltac:(lia) eq_refl).
    rewrite L0 in K. replace (length L - 1 - 0)%nat with (count is_step l) in K by lia.
    unfold L, m1 in K. cbn [nth] in K. rewrite (EE xe VE), (EE xb VX) in K. lra.
  - assert (K := windowed_descent (decrease_rate o) (1 / 2 * (p_inner_tol_min o * p_inner_tol_min o)) L ltac:(lra) ltac:(lra) P0 W1
      ((count is_step l + 4) / 5) 0 ltac:(lia)).
    rewrite L0 in K. assert (KN : (5 * ((count is_step l + 4) / 5) < length L - 1 - 0 + 5)%nat).
    { assert (Q := Nat.mul_div_le (count is_step l + 4) 5 ltac:(lia)). lia. }
    specialize (K KN). unfold L, m1 in K. cbn [nth] in K. rewrite (EE xb VX) in K.
    assert (Q := mer_pos (P:=P) (o:=o) (DI:=DI) (d:=d) (pinit:=pinit) (pst:=pst) xb xe). fold pb in Q. lra.
Qed.
Print Assumptions C55_inner_progress.
