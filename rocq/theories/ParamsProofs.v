(* UpdateOptions: clamping, idempotence, absence of exceptions (C01-C04, C48). *)
From Verif Require Export Riccati.
From Coq Require Import Reals Lra.

(* ---------- specification ---------- *)

(* lo <= x <= hi *)
Definition between {T} (O : Ops T) (lo x hi : T) : Prop :=
  o_leb O lo x = true /\ o_leb O x hi = true.

(* The admissible ranges, as documented by the comments of fbstab_algorithm.h:48-82 and the
   bounds of impl.h:7-31. *)
Record admissible {T} (O : Ops T) (o : params T) : Prop := {
  ad_sigma_max : between O (o_dec O 1 (-6)) (p_sigma_max o) (o_dec O 1 2);
  ad_sigma_min : between O (o_dec O 1 (-13)) (p_sigma_min o) (o_dec O 1 (-8));
  ad_sigma0 : between O (p_sigma_min o) (p_sigma0 o) (p_sigma_max o);
  ad_sigma0_pos : o_leb O (o_dec O 1 (-10)) (p_sigma0 o) = true;
  ad_alpha : between O (o_dec O 1 (-3)) (p_alpha o) (o_dec O 999 (-3));
  ad_beta : between O (o_dec O 1 (-1)) (p_beta o) (o_dec O 99 (-2));
  ad_eta : between O (o_dec O 1 (-12)) (p_eta o) (o_dec O 499 (-3));
  ad_delta : between O (o_dec O 1 (-4)) (p_delta o) (o_dec O 99 (-2));
  ad_gamma : between O (o_dec O 1 (-3)) (p_gamma o) (o_dec O 9 (-1));
  ad_abs : o_leb O (o_dec O 1 (-14)) (p_abs_tol o) = true;
  ad_rel : o_leb O (o_zero O) (p_rel_tol o) = true;
  ad_stall : o_leb O (o_dec O 1 (-14)) (p_stall_tol o) = true;
  ad_infeas : o_leb O (o_dec O 1 (-14)) (p_infeas_tol o) = true;
  ad_itmax : between O (o_dec O 1 (-8)) (p_inner_tol_max o) (o_dec O 1 2);
  ad_itmin : between O (o_dec O 1 (-14)) (p_inner_tol_min o) (o_dec O 1 (-2));
  ad_newton : (1 <= p_max_newton o)%Z; ad_prox : (1 <= p_max_prox o)%Z;
  ad_inner : (1 <= p_max_inner o)%Z; ad_ls : (1 <= p_max_ls o)%Z }.

(* no floating field is a NaN *)
Record nan_free {T} (num : T -> Prop) (o : params T) : Prop := {
  nf_sigma0 : num (p_sigma0 o); nf_sigma_max : num (p_sigma_max o);
  nf_sigma_min : num (p_sigma_min o); nf_alpha : num (p_alpha o); nf_beta : num (p_beta o);
  nf_eta : num (p_eta o); nf_delta : num (p_delta o); nf_gamma : num (p_gamma o);
  nf_abs : num (p_abs_tol o); nf_rel : num (p_rel_tol o); nf_stall : num (p_stall_tol o);
  nf_infeas : num (p_infeas_tol o); nf_itmax : num (p_inner_tol_max o);
  nf_itmin : num (p_inner_tol_min o) }.

(* ---------- proofs, for any ordered scalars ---------- *)
Definition litle {T} (O : Ops T) (m1 e1 m2 e2 : Z) : Prop :=
  o_leb O (o_dec O m1 e1) (o_dec O m2 e2) = true.

(* the comparisons between source literals that are needed *)
Record LitLaws {T} (O : Ops T) : Prop := {
  ll_smax : litle O 1 (-6) 1 2; ll_smin : litle O 1 (-13) 1 (-8); ll_sep : litle O 1 (-8) 1 (-6);
  ll_s0a : litle O 1 (-10) 1 (-6); ll_alpha : litle O 1 (-3) 999 (-3); ll_beta : litle O 1 (-1) 99 (-2);
  ll_eta : litle O 1 (-12) 499 (-3); ll_delta : litle O 1 (-4) 99 (-2); ll_gamma : litle O 1 (-3) 9 (-1);
  ll_itmax : litle O 1 (-8) 1 2; ll_itmin : litle O 1 (-14) 1 (-2) }.

Lemma lit_F : LitLaws Fops.
Proof. constructor; vm_compute; reflexivity. Qed.
Lemma lit_R : LitLaws Rops.
Proof.
  constructor; unfold litle; cbn; apply Rleb_true; unfold Rdec; cbn [Z.leb Z.compare Z.opp];
    cbn; lra.
Qed.

Section Clamp.
  Context {T : Type} {O : Ops T} {num : T -> Prop} (OL : OrdLaws O num) (LL : LitLaws O).

  Notation le a b := (o_leb O a b = true).
  Definition sat (x a b : T) : T := smax O (smin O x b) a.

  Lemma le_refl x : num x -> le x x.
  Proof. apply (leb_refl OL). Qed.

  Lemma sat_between x a b : num x -> le a b -> between O a (sat x a b) b.
  Proof.
    intros Hx Hab. destruct (ol_leb_num _ _ OL _ _ Hab) as [Ha Hb].
    unfold sat, smax, smin, between.
    destruct (o_ltb O b x) eqn:E1.
    - destruct (o_ltb O b a) eqn:E2; split; auto using le_refl.
    - pose proof (ltb_false_leb OL _ _ Hb Hx E1) as L1.
      destruct (o_ltb O x a) eqn:E2; split; auto using le_refl.
      apply (ltb_false_leb OL); auto.
  Qed.
  Lemma sat_id x a b : between O a x b -> sat x a b = x.
  Proof.
    intros [H1 H2]. unfold sat, smax, smin.
    rewrite (leb_ltb_false OL _ _ H2), (leb_ltb_false OL _ _ H1). reflexivity.
  Qed.
  Lemma smax_ge x a : num x -> num a -> le a (smax O x a).
  Proof.
    intros Hx Ha. unfold smax. destruct (o_ltb O x a) eqn:E; auto using le_refl.
    apply (ltb_false_leb OL); auto.
  Qed.
  Lemma smax_id x a : le a x -> smax O x a = x.
  Proof. intro H. unfold smax. rewrite (leb_ltb_false OL _ _ H). reflexivity. Qed.
  Lemma smax_num x a : num x -> num a -> num (smax O x a).
  Proof. intros. unfold smax. destruct (o_ltb O x a); auto. Qed.
  Lemma between_num a x b : between O a x b -> num x.
  Proof. intros [H _]. apply (ol_leb_num _ _ OL _ _ H). Qed.

  Lemma saturate_ok x a b : le a b -> saturate O x a b = Ok (sat x a b).
  Proof. intro H. unfold saturate. rewrite (leb_ltb_false OL _ _ H). reflexivity. Qed.

  (* nothing is below a NaN *)
  Hypothesis Hdec : forall x, num x \/ ~ num x.
  Lemma nan_ltb_l x y : ~ num x -> o_ltb O x y = false.
  Proof. intro H. destruct (o_ltb O x y) eqn:E; auto. destruct H. apply (ol_ltb_num _ _ OL _ _ E). Qed.
  Lemma nan_ltb_r x y : ~ num y -> o_ltb O x y = false.
  Proof. intro H. destruct (o_ltb O x y) eqn:E; auto. destruct H. apply (ol_ltb_num _ _ OL _ _ E). Qed.
  Lemma sat_nan x a b : ~ num x -> sat x a b = x.
  Proof. intro H. unfold sat, smax, smin. rewrite (nan_ltb_r b x H), (nan_ltb_l x a H). reflexivity. Qed.

  (* the bounds of sigma0 are never reversed *)
  Lemma sigma_bounds smx smn :
    o_ltb O (sat smx (o_dec O 1 (-6)) (o_dec O 1 2)) (sat smn (o_dec O 1 (-13)) (o_dec O 1 (-8))) = false.
  Proof.
    destruct (Hdec smx) as [H1|H1]; [|rewrite (sat_nan smx) by exact H1; apply nan_ltb_l; exact H1].
    destruct (Hdec smn) as [H2|H2]; [|rewrite (sat_nan smn) by exact H2; apply nan_ltb_r; exact H2].
    apply (leb_ltb_false OL).
    destruct (sat_between smn _ _ H2 (ll_smin _ LL)) as [_ A].
    destruct (sat_between smx _ _ H1 (ll_smax _ LL)) as [B _].
    eapply (ol_trans _ _ OL); [exact A|]. eapply (ol_trans _ _ OL); [apply (ll_sep _ LL)|exact B].
  Qed.

  Definition validated (o : params T) : params T :=
    let sigma_max := sat (p_sigma_max o) (o_dec O 1 (-6)) (o_dec O 1 2) in
    let sigma_min := sat (p_sigma_min o) (o_dec O 1 (-13)) (o_dec O 1 (-8)) in
    mkParams (sat (smax O (p_sigma0 o) (o_dec O 1 (-10))) sigma_min sigma_max) sigma_max sigma_min
      (sat (p_alpha o) (o_dec O 1 (-3)) (o_dec O 999 (-3)))
      (sat (p_beta o) (o_dec O 1 (-1)) (o_dec O 99 (-2)))
      (sat (p_eta o) (o_dec O 1 (-12)) (o_dec O 499 (-3)))
      (sat (p_delta o) (o_dec O 1 (-4)) (o_dec O 99 (-2)))
      (sat (p_gamma o) (o_dec O 1 (-3)) (o_dec O 9 (-1)))
      (smax O (p_abs_tol o) (o_dec O 1 (-14))) (smax O (p_rel_tol o) (o_zero O))
      (smax O (p_stall_tol o) (o_dec O 1 (-14))) (smax O (p_infeas_tol o) (o_dec O 1 (-14)))
      (sat (p_inner_tol_max o) (o_dec O 1 (-8)) (o_dec O 1 2))
      (sat (p_inner_tol_min o) (o_dec O 1 (-14)) (o_dec O 1 (-2)))
      (Z.max (p_max_newton o) 1) (Z.max (p_max_prox o) 1)
      (Z.max (p_max_inner o) 1) (Z.max (p_max_ls o) 1)
      (p_check_feas o) (p_nonmonotone o) (p_display o).

  Lemma validate_ok o : ValidateOptions O o = Ok (validated o).
  Proof.
    unfold ValidateOptions, validated.
    rewrite (saturate_ok _ _ _ (ll_smax _ LL)); cbn [rbind].
    rewrite (saturate_ok _ _ _ (ll_smin _ LL)); cbn [rbind].
    unfold saturate at 1. rewrite sigma_bounds. cbn [rbind].
    rewrite (saturate_ok _ _ _ (ll_alpha _ LL)); cbn [rbind].
    rewrite (saturate_ok _ _ _ (ll_beta _ LL)); cbn [rbind].
    rewrite (saturate_ok _ _ _ (ll_eta _ LL)); cbn [rbind].
    rewrite (saturate_ok _ _ _ (ll_delta _ LL)); cbn [rbind].
    rewrite (saturate_ok _ _ _ (ll_gamma _ LL)); cbn [rbind].
    rewrite (saturate_ok _ _ _ (ll_itmax _ LL)); cbn [rbind].
    rewrite (saturate_ok _ _ _ (ll_itmin _ LL)); cbn [rbind].
    reflexivity.
  Qed.

  Lemma update_ok cur o : UpdateParameters O cur o = Ok (validated o).
  Proof. unfold UpdateParameters. rewrite validate_ok. reflexivity. Qed.

  Lemma lit_num_l m1 e1 m2 e2 : litle O m1 e1 m2 e2 -> num (o_dec O m1 e1).
  Proof. intro H. apply (ol_leb_num _ _ OL _ _ H). Qed.

  Lemma validated_admissible o : nan_free num o -> admissible O (validated o).
  Proof.
    intros []. pose proof (ll_smax _ LL) as A1. pose proof (ll_smin _ LL) as A2.
    pose proof (lit_num_l _ _ _ _ (ll_itmin _ LL)) as N14.
    pose proof (lit_num_l _ _ _ _ (ll_s0a _ LL)) as N10.
    pose proof (sat_between _ _ _ nf_sigma_max0 A1) as B1.
    pose proof (sat_between _ _ _ nf_sigma_min0 A2) as B2.
    assert (B3 : le (sat (p_sigma_min o) (o_dec O 1 (-13)) (o_dec O 1 (-8)))
                    (sat (p_sigma_max o) (o_dec O 1 (-6)) (o_dec O 1 2))).
    { eapply (ol_trans _ _ OL); [apply B2|]. eapply (ol_trans _ _ OL); [apply (ll_sep _ LL)|apply B1]. }
    pose proof (smax_num _ _ nf_sigma1 N10) as NS.
    pose proof (sat_between _ _ _ NS B3) as B4.
    constructor; cbn [validated p_sigma0 p_sigma_max p_sigma_min p_alpha p_beta p_eta p_delta p_gamma
      p_abs_tol p_rel_tol p_stall_tol p_infeas_tol p_inner_tol_max p_inner_tol_min
      p_max_newton p_max_prox p_max_inner p_max_ls];
      auto using smax_ge, (ol_zero_num _ _ OL); try lia;
      try (apply sat_between; [assumption|apply LL]).
    (* sigma0 >= 1e-10: clamping from above cannot go below 1e-6 *)
    unfold sat at 1. unfold smin at 1.
    set (SX := sat (p_sigma_max o) _ _) in *. set (SN := sat (p_sigma_min o) _ _) in *.
    assert (G : le (o_dec O 1 (-10)) (if o_ltb O SX (smax O (p_sigma0 o) (o_dec O 1 (-10))) then SX
                    else smax O (p_sigma0 o) (o_dec O 1 (-10)))).
    { destruct (o_ltb O SX _); [|apply smax_ge; auto].
      eapply (ol_trans _ _ OL); [apply (ll_s0a _ LL)|apply B1]. }
    unfold smax at 1. destruct (o_ltb O _ SN) eqn:E; [|exact G].
    eapply (ol_trans _ _ OL); [exact G|]. apply (ltb_leb OL). exact E.
  Qed.

  Lemma validated_id o : admissible O o -> validated o = o.
  Proof.
    intros []. destruct o; unfold validated; cbn in *.
    rewrite (smax_id _ _ ad_sigma0_pos0).
    rewrite (sat_id _ _ _ ad_sigma_max0), (sat_id _ _ _ ad_sigma_min0), (sat_id _ _ _ ad_sigma1).
    rewrite (sat_id _ _ _ ad_alpha0), (sat_id _ _ _ ad_beta0), (sat_id _ _ _ ad_eta0),
      (sat_id _ _ _ ad_delta0), (sat_id _ _ _ ad_gamma0), (sat_id _ _ _ ad_itmax0),
      (sat_id _ _ _ ad_itmin0).
    rewrite !smax_id by assumption. rewrite !Z.max_l by lia. reflexivity.
  Qed.

  Lemma sat_idem x a b : le a b -> sat (sat x a b) a b = sat x a b.
  Proof.
    intro H. destruct (Hdec x) as [N|N].
    - apply sat_id. apply sat_between; auto.
    - rewrite !(sat_nan x) by exact N. reflexivity.
  Qed.
  Lemma smax_idem x a : smax O (smax O x a) a = smax O x a.
  Proof.
    unfold smax. destruct (o_ltb O x a) eqn:E; [|rewrite E; reflexivity].
    destruct (o_ltb O a a); reflexivity.
  Qed.

  (* also with NaN fields *)
  Lemma validated_idem o : validated (validated o) = validated o.
  Proof.
    unfold validated.
    cbn [p_sigma0 p_sigma_max p_sigma_min p_alpha p_beta p_eta p_delta p_gamma
      p_abs_tol p_rel_tol p_stall_tol p_infeas_tol p_inner_tol_max p_inner_tol_min
      p_max_newton p_max_prox p_max_inner p_max_ls p_check_feas p_nonmonotone p_display].
    rewrite !(sat_idem _ _ _ (ll_smax _ LL)), !(sat_idem _ _ _ (ll_smin _ LL)),
      !(sat_idem _ _ _ (ll_alpha _ LL)), !(sat_idem _ _ _ (ll_beta _ LL)),
      !(sat_idem _ _ _ (ll_eta _ LL)), !(sat_idem _ _ _ (ll_delta _ LL)),
      !(sat_idem _ _ _ (ll_gamma _ LL)), !(sat_idem _ _ _ (ll_itmax _ LL)),
      !(sat_idem _ _ _ (ll_itmin _ LL)), !smax_idem.
    rewrite <- !Z.max_assoc, !Z.max_id. f_equal.
    set (SX := sat (p_sigma_max o) (o_dec O 1 (-6)) (o_dec O 1 2)).
    set (SN := sat (p_sigma_min o) (o_dec O 1 (-13)) (o_dec O 1 (-8))).
    pose proof (sigma_bounds (p_sigma_max o) (p_sigma_min o)) as SB. fold SX SN in SB.
    set (s1 := smax O (p_sigma0 o) (o_dec O 1 (-10))).
    pose proof (lit_num_l _ _ _ _ (ll_s0a _ LL)) as N10.
    destruct (Hdec (p_sigma0 o)) as [N0|N0].
    2:{ assert (E : s1 = p_sigma0 o) by (unfold s1, smax; rewrite nan_ltb_l by exact N0; reflexivity).
        rewrite E. rewrite !(sat_nan (p_sigma0 o)) by exact N0.
        unfold smax. rewrite nan_ltb_l by exact N0. apply sat_nan; exact N0. }
    assert (NS : num s1) by (apply smax_num; auto).
    assert (GS : le (o_dec O 1 (-10)) s1) by (apply smax_ge; auto).
    assert (G : le (o_dec O 1 (-10)) (sat s1 SN SX)).
    { assert (G1 : le (o_dec O 1 (-10)) (smin O s1 SX)).
      { unfold smin. destruct (o_ltb O SX s1) eqn:E; [|exact GS].
        destruct (Hdec (p_sigma_max o)) as [NX|NX].
        - eapply (ol_trans _ _ OL); [apply (ll_s0a _ LL)|].
          apply (sat_between _ _ _ NX (ll_smax _ LL)).
        - unfold SX in E. rewrite sat_nan, nan_ltb_l in E by exact NX. discriminate. }
      unfold sat, smax. destruct (o_ltb O (smin O s1 SX) SN) eqn:E; [|exact G1].
      eapply (ol_trans _ _ OL); [exact G1|]. apply (ltb_leb OL). exact E. }
    rewrite (smax_id _ _ G).
    unfold sat, smax, smin.
    destruct (o_ltb O SX s1) eqn:E1.
    - rewrite SB. destruct (o_ltb O SX SX); rewrite SB; reflexivity.
    - destruct (o_ltb O s1 SN) eqn:E2.
      + rewrite SB. destruct (o_ltb O SN SN); reflexivity.
      + rewrite E1, E2. reflexivity.
  Qed.

  (* NaN fields survive *)
  Lemma validated_alpha_nan o : ~ num (p_alpha o) -> p_alpha (validated o) = p_alpha o.
  Proof. intro H. cbn. apply sat_nan. exact H. Qed.
End Clamp.

Lemma Fnum_dec (x : F64) : Fnum x \/ ~ Fnum x.
Proof. destruct x; (left; discriminate) || (right; intro H; apply H; reflexivity). Qed.
