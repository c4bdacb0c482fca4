(* The Riccati linear solver satisfies the laws [Refine.v] needs: its result does not depend
   on the previous content of its workspaces. *)
From Verif Require Export MpcOk.

Section LowEq.
  Context {T : Type} (O : Ops T) (LA : LinAlg T).

  (* equal dimensions, equal lower triangles *)
  Definition leq (M M' : mat T) : Prop :=
    mr M = mr M' /\ mc M = mc M' /\
    forall i j, i < mr M -> j < mc M -> j <= i -> mget O M i j = mget O M' i j.

  Lemma leq_refl M : leq M M.
  Proof. unfold leq; auto. Qed.

  Lemma mtab_ext r c (f g : nat -> nat -> T) :
    (forall i j, i < r -> j < c -> f i j = g i j) -> mtab r c f = mtab r c g.
  Proof.
    intro H. unfold mtab. f_equal. apply tab_ext. intros k Hk.
    destruct r as [|r]; [lia|]. apply H.
    - apply Nat.mod_upper_bound. lia.
    - apply Nat.div_lt_upper_bound; lia.
  Qed.

  Lemma leq_lowpart M M' : leq M M' -> lowpart O M = lowpart O M'.
  Proof.
    intros (H1 & H2 & H3). unfold lowpart. rewrite <- H1, <- H2. apply mtab_ext. intros i j Hi Hj.
    destruct (Nat.leb_spec j i); auto.
  Qed.

  Lemma leq_symlow M M' : leq M M' -> mr M = mc M -> symlow O M = symlow O M'.
  Proof.
    intros (H1 & H2 & H3) HS. unfold symlow. rewrite <- H1. apply mtab_ext. intros i j Hi Hj.
    destruct (Nat.leb_spec j i); apply H3; lia.
  Qed.

  Lemma leq_lower_assign old old' new new' :
    mr old = mr old' -> mc old = mc old' ->
    (forall i j, i < mr old -> j < mc old -> j <= i -> mget O new i j = mget O new' i j) ->
    leq (mlower_assign O old new) (mlower_assign O old' new').
  Proof.
    intros H1 H2 H. unfold mlower_assign. rewrite <- H1, <- H2. split; [reflexivity|]. split; [reflexivity|].
    intros i j Hi Hj Hl. cbn [mr mc mtab] in Hi, Hj.
    rewrite !mget_mtab by assumption. destruct (Nat.leb_spec j i); [auto|lia].
  Qed.

  Lemma mget_madd M N i j : i < mr M -> j < mc M ->
    mget O (madd O M N) i j = o_add O (mget O M i j) (mget O N i j).
  Proof. intros. unfold madd. rewrite mget_mtab; auto. Qed.
  Lemma mget_msub M N i j : i < mr M -> j < mc M ->
    mget O (msub O M N) i j = o_sub O (mget O M i j) (mget O N i j).
  Proof. intros. unfold msub. rewrite mget_mtab; auto. Qed.
  Lemma mget_lower old new i j : i < mr old -> j < mc old ->
    mget O (mlower_assign O old new) i j = if j <=? i then mget O new i j else mget O old i j.
  Proof. intros. unfold mlower_assign. rewrite mget_mtab; auto. Qed.

  Lemma leq_madd M M' N : leq M M' -> leq (madd O M N) (madd O M' N).
  Proof.
    intros (H1 & H2 & H3). split; [exact H1|]. split; [exact H2|].
    intros i j Hi Hj Hl. cbn [madd mtab mr mc] in Hi, Hj.
    rewrite !mget_madd by (rewrite <- ?H1, <- ?H2; assumption). rewrite H3; auto.
  Qed.
  Lemma leq_msub M M' N : leq M M' -> leq (msub O M N) (msub O M' N).
  Proof.
    intros (H1 & H2 & H3). split; [exact H1|]. split; [exact H2|].
    intros i j Hi Hj Hl. cbn [msub mtab mr mc] in Hi, Hj.
    rewrite !mget_msub by (rewrite <- ?H1, <- ?H2; assumption). rewrite H3; auto.
  Qed.

  Lemma leq_llt M M' : leq M M' -> mr M = mc M ->
    match llt_inplace O LA M, llt_inplace O LA M' with
    | Some F, Some F' => leq F F' /\ mr F = mr M /\ mc F = mc M
    | None, None => True
    | _, _ => False
    end.
  Proof.
    intros H HS. unfold llt_inplace. rewrite (leq_symlow _ _ H HS).
    destruct (la_llt LA (symlow O M')) as [F|]; [|exact I].
    destruct H as (H1 & H2 & H3).
    split; [|split; reflexivity]. apply leq_lower_assign; auto.
  Qed.

  Lemma leq_rsolve M M' B : leq M M' -> rsolve_mat O LA M B = rsolve_mat O LA M' B.
  Proof. intro H. unfold rsolve_mat. rewrite (leq_lowpart _ _ H). reflexivity. Qed.
  Lemma leq_lsolve_vec M M' b : leq M M' -> lsolve_vec O LA M b = lsolve_vec O LA M' b.
  Proof. intro H. unfold lsolve_vec. rewrite (leq_lowpart _ _ H). reflexivity. Qed.
  Lemma leq_ltsolve_vec M M' b : leq M M' -> ltsolve_vec O LA M b = ltsolve_vec O LA M' b.
  Proof. intro H. unfold ltsolve_vec. rewrite (leq_lowpart _ _ H). reflexivity. Qed.
End LowEq.

Section RiccatiOk.
  Context {T : Type} (O : Ops T) (LA : LinAlg T).
  Hypothesis Hz00 : o_eqb O (o_zero O) (o_zero O) = true.
  Context (d : mpc_data T) (N nx nu nc : nat) (Hd : mpc_ok d N nx nu nc).
  Notation leq := (leq O).

  Definition stage_ok (st : rstage T) : Prop :=
    mr (st_Q st) = nx /\ mc (st_Q st) = nx /\ mr (st_R st) = nu /\ mc (st_R st) = nu /\
    mr (st_M st) = nx /\ mc (st_M st) = nx.

  Ltac stage H :=
    let E := fresh "E" in let R := fresh "R" in let C := fresh "C" in
    match type of H with sok ?s ?n ?r ?c =>
      match goal with |- context [at_ s ?k] =>
        destruct (sok_stg s n r c k H) as (E & R & C); [lia|];
        rewrite E; cbn [rbind]
      end end.
  Ltac shapes := unfold shape;
    repeat match goal with H : mr ?M = _ |- context [mr ?M] => rewrite H end;
    repeat match goal with H : mc ?M = _ |- context [mc ?M] => rewrite H end;
    rewrite ?Nat.eqb_refl; cbn [andb ub_unless rbind].

  Lemma augment_ok sg Gm i o o' : stage_ok o -> stage_ok o' -> i < N + 1 ->
    exists Q R Q' R' Sm,
      augment O d sg Gm i o = Ok (Q, R, Sm) /\ augment O d sg Gm i o' = Ok (Q', R', Sm) /\
      leq Q Q' /\ leq R R' /\ mr Q = nx /\ mc Q = nx /\ mr R = nu /\ mc R = nu /\
      mr Sm = nu /\ mc Sm = nx.
  Proof.
    intros (A1 & A2 & A3 & A4 & A5 & A6) (B1 & B2 & B3 & B4 & B5 & B6) Hi.
    destruct Hd as [EN Ex Eu Ec Ez El Ev HQ HR HS Hq Hr HA HB Hc HE HL HD Hx0].
    unfold augment. rewrite Ex, Eu, Ec. stage HE. stage HL. stage HQ. stage HR. stage HS. shapes.
    do 5 eexists. split; [reflexivity|]. split; [reflexivity|].
    cbn [mr mc mlower_assign madd mtab]. rewrite A1, A2, A3, A4, R3, C3.
    split; [|split; [|auto 10]].
    - apply leq_lower_assign; cbn [mr mc mlower_assign mtab]; [congruence|congruence|].
      rewrite A1, A2. intros p q Hp Hq' Hpq.
      rewrite !mget_madd by (cbn [mr mc mlower_assign mtab]; rewrite ?A1, ?A2, ?B1, ?B2; lia).
      rewrite !mget_lower by (rewrite ?A1, ?A2, ?B1, ?B2; lia).
      destruct (Nat.leb_spec q p); [reflexivity|lia].
    - apply leq_lower_assign; cbn [mr mc mlower_assign mtab]; [congruence|congruence|].
      rewrite A3, A4. intros p q Hp Hq' Hpq.
      rewrite !mget_madd by (cbn [mr mc mlower_assign mtab]; rewrite ?A3, ?A4, ?B3, ?B4; lia).
      rewrite !mget_lower by (rewrite ?A3, ?A4, ?B3, ?B4; lia).
      destruct (Nat.leb_spec q p); [reflexivity|lia].
  Qed.

  (* stages that the vector recursions cannot tell apart *)
  Definition wrel (s s' : rstage T) : Prop :=
    leq (st_M s) (st_M s') /\ leq (st_SG s) (st_SG s') /\ st_L s = st_L s' /\ st_SM s = st_SM s' /\
    mr (st_SM s) = nu.
  Inductive srel : list (rstage T) -> list (rstage T) -> Prop :=
  | sr_last s s' : wrel s s' -> srel [s] [s']
  | sr_cons s s' l l' : wrel s s' -> st_P s = st_P s' -> st_AM s = st_AM s' -> mr (st_P s) = nx ->
      srel l l' -> srel (s :: l) (s' :: l').

  Lemma srel_len l l' : srel l l' -> length l = length l'.
  Proof. induction 1; cbn; congruence. Qed.

  Lemma ric_rel sg Gm n : forall i L old old',
    i + n = N -> length old = S n -> length old' = S n ->
    Forall stage_ok old -> Forall stage_ok old' ->
    match ric_matrices O LA n i L d sg Gm old, ric_matrices O LA n i L d sg Gm old' with
    | Ok (Some l), Ok (Some l') =>
        srel l l' /\ Forall stage_ok l /\ Forall stage_ok l' /\ length l = S n
    | Ok None, Ok None => True
    | _, _ => False
    end.
  Proof.
    pose proof Hd as [EN Ex Eu Ec Ez El Ev HQ HR HS Hq Hr HA HB Hc HE HL HD Hx0].
    induction n as [|n IH]; intros i L old old' Hi L1 L2 F1 F2;
      (destruct old as [|o old]; [discriminate L1|]); (destruct old' as [|o' old']; [discriminate L2|]);
      inversion_clear F1 as [|? ? S1 F1']; inversion_clear F2 as [|? ? S2 F2'];
      cbn [ric_matrices];
      destruct (augment_ok sg Gm i o o' S1 S2) as
        (Q & R & Q' & R' & Sm & E1 & E2 & LQ & LR & q1 & q2 & r1 & r2 & s1 & s2); try lia;
      rewrite E1, E2; cbn [rbind]; rewrite Ex;
      destruct S1 as (A1 & A2 & A3 & A4 & A5 & A6); destruct S2 as (B1 & B2 & B3 & B4 & B5 & B6);
      pose proof (leq_madd O _ _ (inv_llt O LA L nx) LQ) as LM0;
      assert (LM : leq (mlower_assign O (st_M o) (madd O Q (inv_llt O LA L nx)))
                       (mlower_assign O (st_M o') (madd O Q' (inv_llt O LA L nx))))
        by (apply leq_lower_assign; [congruence|congruence|];
            intros p q Hp Hq' Hpq; apply LM0; cbn [madd mtab mr mc]; lia);
      pose proof (leq_llt O LA _ _ LM) as LL;
      specialize (LL ltac:(cbn [mlower_assign mtab mr mc]; congruence));
      destruct (llt_inplace O LA _) as [M|]; destruct (llt_inplace O LA _) as [M'|]; try destruct LL;
      try exact I.
    - destruct H0 as [m1 m2]. cbn [mlower_assign mtab mr mc] in m1, m2.
      rewrite (leq_rsolve O LA _ _ _ H).
      set (SM := rsolve_mat O LA M' Sm).
      pose proof (leq_msub O _ _ (mm O SM (mtrans O SM)) LR) as LR'.
      pose proof (leq_llt O LA _ _ LR') as LL2.
      specialize (LL2 ltac:(cbn [msub mtab mr mc]; congruence)).
      destruct (llt_inplace O LA _) as [SG|]; destruct (llt_inplace O LA _) as [SG'|]; try destruct LL2;
        try exact I.
      split; [|split; [|split; [|reflexivity]]].
      + constructor. unfold wrel; cbn. repeat (split; [solve [assumption|reflexivity|apply H|apply H0]|]).
        exact s1.
      + constructor; [|constructor]. unfold stage_ok; cbn. intuition congruence.
      + constructor; [|constructor]. destruct LQ as (? & ? & _), LR as (? & ? & _), H as (? & ? & _).
        unfold stage_ok; cbn. intuition congruence.
    - destruct H0 as [m1 m2]. cbn [mlower_assign mtab mr mc] in m1, m2.
      rewrite (leq_rsolve O LA _ _ _ H).
      set (SM := rsolve_mat O LA M' Sm).
      pose proof (leq_msub O _ _ (mm O SM (mtrans O SM)) LR) as LR'.
      pose proof (leq_llt O LA _ _ LR') as LL2.
      specialize (LL2 ltac:(cbn [msub mtab mr mc]; congruence)).
      destruct (llt_inplace O LA _) as [SG|]; destruct (llt_inplace O LA _) as [SG'|]; try destruct LL2;
        try exact I.
      stage HA. stage HB. rewrite Eu. shapes.
      rewrite (leq_rsolve O LA _ _ (stg (m_A (md_m d)) i) H).
      set (AM := rsolve_mat O LA M' (stg (m_A (md_m d)) i)).
      rewrite (leq_rsolve O LA _ _ _ H0).
      set (P := rsolve_mat O LA SG' _).
      destruct (llt_inplace O LA (madd O _ _)) as [L1'|]; [|exact I].
      specialize (IH (S i) L1' old old').
      cbn [length] in L1, L2.
      specialize (IH ltac:(lia) ltac:(lia) ltac:(lia) F1' F2').
      destruct (ric_matrices O LA n (S i) L1' d sg Gm old) as [[l|]|e|u]; cbn [rbind];
        destruct (ric_matrices O LA n (S i) L1' d sg Gm old') as [[l'|]|e'|u'];
        try destruct IH; try exact I.
      destruct H3 as (F3 & F4 & L3).
      split; [|split; [|split; [|cbn [length]; lia]]].
      + constructor; cbn [st_P st_AM st_M st_SG st_L st_SM]; auto.
        unfold wrel; cbn. repeat (split; [solve [assumption|reflexivity|apply H|apply H0]|]).
        exact s1.
      + constructor; [|assumption]. unfold stage_ok; cbn. intuition congruence.
      + constructor; [|assumption]. destruct LQ as (? & ? & _), LR as (? & ? & _), H as (? & ? & _).
        unfold stage_ok; cbn. intuition congruence.
  Qed.

  Lemma lsolve_vec_len M b : length (lsolve_vec O LA M b) = length b.
  Proof. apply tab_length. Qed.
  Lemma ltsolve_vec_len M b : length (ltsolve_vec O LA M b) = length b.
  Proof. apply tab_length. Qed.
  Lemma solve_llt_len L b : length (solve_llt O LA L b) = length b.
  Proof. unfold solve_llt. rewrite ltsolve_vec_len, lsolve_vec_len. reflexivity. Qed.
  Lemma vneg_len v : length (vneg O v) = length v.
  Proof. apply vscale_len. Qed.
  Lemma ric_h_len st th rx : length (ric_h O LA st th rx) = length th.
  Proof. unfold ric_h. rewrite vsub_len, solve_llt_len. reflexivity. Qed.
  Lemma ric_tu_len st h ru : length (ric_tu O LA st h ru) = mr (st_SM st).
  Proof. unfold ric_tu. rewrite lsolve_vec_len, vadd_len, mv_len. reflexivity. Qed.
  Hint Rewrite lsolve_vec_len ltsolve_vec_len solve_llt_len vneg_len ric_h_len ric_tu_len : vlen.

  Lemma wrel_h s s' th rx : wrel s s' -> ric_h O LA s th rx = ric_h O LA s' th rx.
  Proof. intros (_ & _ & E & _). unfold ric_h. rewrite E. reflexivity. Qed.
  Lemma wrel_tu s s' h ru : wrel s s' -> ric_tu O LA s h ru = ric_tu O LA s' h ru.
  Proof.
    intros (E1 & E2 & E3 & E4 & _). unfold ric_tu.
    rewrite (leq_lsolve_vec O LA _ _ _ E1), (leq_lsolve_vec O LA _ _ _ E2), E4. reflexivity.
  Qed.

  Lemma fwd_rel l l' : srel l l' -> forall i th r1 r2,
    ric_forward O LA l i th r1 r2 nx nu = ric_forward O LA l' i th r1 r2 nx nu.
  Proof.
    induction 1 as [s s' W|s s' l l' W HP HA HPr R IH]; intros; cbn [ric_forward].
    - rewrite (wrel_h _ _ _ _ W). reflexivity.
    - rewrite (wrel_h _ _ _ _ W), (wrel_tu _ _ _ _ W), HP, HA.
      destruct W as (E1 & _). rewrite (leq_lsolve_vec O LA _ _ _ E1). rewrite IH. reflexivity.
  Qed.

  Lemma bwd_rel l l' : srel l l' -> forall ths i r1,
    ric_backward O LA l ths i r1 nx nu = ric_backward O LA l' ths i r1 nx nu.
  Proof.
    induction 1 as [s s' W|s s' l l' W HP HA HPr R IH]; intros [|[th h] ths] i r1; cbn [ric_backward];
      try reflexivity.
    - rewrite (wrel_tu _ _ _ _ W). destruct W as (E1 & E2 & E3 & E4 & _).
      rewrite (leq_lsolve_vec O LA _ _ _ E1), E3, E4.
      rewrite (leq_ltsolve_vec O LA _ _ _ E2).
      destruct ths; cbn [ric_backward]; rewrite (leq_ltsolve_vec O LA _ _ _ E1); reflexivity.
    - rewrite (wrel_tu _ _ _ _ W), IH, HP, HA. destruct W as (E1 & E2 & E3 & E4 & _).
      rewrite (leq_lsolve_vec O LA _ _ _ E1), E3, E4.
      destruct (ric_backward O LA l' ths (S i) r1 nx nu) as [|[[x1 u1] l1] tl];
        rewrite (leq_ltsolve_vec O LA _ _ _ E2), (leq_ltsolve_vec O LA _ _ _ E1); reflexivity.
  Qed.

  Definition triple_ok (t : vec T * vec T * vec T) : Prop :=
    length (fst (fst t)) = nx /\ length (snd (fst t)) = nu /\ length (snd t) = nx.

  Lemma fb_len l l' : srel l l' -> forall i th r1 r2, length th = nx ->
    let sol := ric_backward O LA l (ric_forward O LA l i th r1 r2 nx nu) i r1 nx nu in
    length sol = length l /\ Forall triple_ok sol.
  Proof.
    induction 1 as [s s' W|s s' l l' W HP HA HPr R IH]; intros i th r1 r2 Hth; cbn [ric_forward ric_backward].
    - destruct W as (_ & _ & _ & _ & W). cbn. split; [reflexivity|]. constructor; [|constructor].
      unfold triple_ok; cbn. autorewrite with vlen. auto.
    - set (th1 := vadd O _ _).
      destruct (IH (S i) th1 r1 r2) as [L1 F1].
      { unfold th1. autorewrite with vlen. exact HPr. }
      destruct W as (_ & _ & _ & _ & W).
      set (tl := ric_backward O LA l _ _ _ _ _) in *. clearbody tl.
      destruct tl as [|[[x1 u1] l1] tl].
      + split; [cbn [length] in *; lia|]. constructor; [|constructor].
        unfold triple_ok; cbn. autorewrite with vlen. auto.
      + split; [cbn [length] in *; lia|]. constructor; [|exact F1].
        unfold triple_ok; cbn [fst snd]. autorewrite with vlen. auto.
  Qed.

  Lemma concat_len (f : vec T * vec T * vec T -> vec T) k sol :
    (forall t, triple_ok t -> length (f t) = k) -> Forall triple_ok sol ->
    length (concat (map f sol)) = length sol * k.
  Proof.
    intros Hf. induction 1 as [|t sol Ht HF IH]; cbn; [reflexivity|].
    rewrite app_length, (Hf t Ht), IH. reflexivity.
  Qed.

  Lemma ric_vectors_rel l l' r1 r2 : srel l l' ->
    ric_vectors O LA l r1 r2 nx nu = ric_vectors O LA l' r1 r2 nx nu.
  Proof. intro H. unfold ric_vectors. rewrite (fwd_rel _ _ H), (bwd_rel _ _ H). reflexivity. Qed.

  Lemma ric_vectors_len l l' r1 r2 : srel l l' ->
    length (fst (ric_vectors O LA l r1 r2 nx nu)) = length l * (nx + nu) /\
    length (snd (ric_vectors O LA l r1 r2 nx nu)) = length l * nx.
  Proof.
    intro H. unfold ric_vectors. cbn [fst snd].
    destruct (fb_len _ _ H 0 (blk_l O r2 nx 0) r1 r2) as [L F].
    { unfold blk_l. apply vseg_len. }
    rewrite (concat_len _ (nx + nu)), (concat_len _ nx), L; auto.
    - intros t (_ & _ & E). exact E.
    - intros t (E1 & E2 & _). rewrite app_length. unfold vec in *. rewrite E1, E2. reflexivity.
  Qed.

  (* ---- gemvA with b = 0 does not read the old y ---- *)
  Lemma mpc_gemvA_b0 x a y y' : length y = length y' ->
    mpc_gemvA O d x a (o_zero O) y = mpc_gemvA O d x a (o_zero O) y'.
  Proof.
    intro E. unfold mpc_gemvA, size_chk, prescale. rewrite Hz00, E. reflexivity.
  Qed.

  Definition nz := (N + 1) * (nx + nu).
  Definition nl := (N + 1) * nx.
  Definition nv := (N + 1) * nc.

  Definition z_stage : rstage T :=
    let m r c := mtab r c (fun _ _ => o_zero O) in
    mkStage (m nx nx) (m nu nu) (m nu nx) (m nx nu) (m nu nu) (m nx nx) (m nx nx) (m nu nx) (m nx nx).

  Definition m_lsize (c : ricc T) : Prop :=
    rc_N c = N /\ rc_nx c = nx /\ rc_nu c = nu /\ rc_nc c = nc /\
    rc_nz c = nz /\ rc_nl c = nl /\ rc_nv c = nv /\ length (rc_ws c) = N + 1 /\
    Forall stage_ok (rc_ws c).
  Definition m_ready (al : T) (c : ricc T) : Prop :=
    m_lsize c /\ rc_alpha c = al /\ rc_data c = PLive d.
  Definition m_Gamma (al sg : T) (x xb : var T) : vec T :=
    w_Gamma O (w_gamma O al sg x xb nv) (w_mus O al sg x xb nv).
  (* the factorisation, on a zero workspace *)
  Definition m_fact (al sg : T) (x xb : var T) : option (list (rstage T)) :=
    unres None (ric_matrices O LA N 0 (meye O nx (o_sqrt O sg)) d sg (m_Gamma al sg x xb)
                             (tab (N + 1) (fun _ => z_stage))).
  Definition m_pinit (al sg : T) (x xb : var T) : res bool :=
    if o_leb O sg (o_zero O) then Throw ESigma
    else Ok (match m_fact al sg x xb with Some _ => true | None => false end).
  Definition m_pst (al sg : T) (x xb : var T) (r : rsd T) : var T :=
    let gamma := w_gamma O al sg x xb nv in
    let mus := w_mus O al sg x xb nv in
    let r3 := vquot O (r_v r) mus in
    let r1 := gAT (mpcDI O) d r3 (o_mone O) (o_one O) (r_z r) in
    let r2 := vopp O (r_l r) in
    let '(dz, dl) := ric_vectors O LA (match m_fact al sg x xb with Some s => s | None => [] end)
                                 r1 r2 nx nu in
    let Adz := gA (mpcDI O) d dz (o_one O) (o_zero O) (vconst nv (o_zero O)) in
    let dv := vquot O (vadd O (r_v r) (tab nv (fun i => o_mul O (vget O gamma i) (vget O Adz i)))) mus in
    let dy := ab (mpcDI O) d (o_one O)
                (gA (mpcDI O) d dz (o_mone O) (o_zero O) (vconst nv (o_zero O))) in
    mkVar dz dl dv dy.

  Lemma z_stages_ok : Forall stage_ok (tab (N + 1) (fun _ => z_stage)).
  Proof.
    apply Forall_forall. intros st H. unfold tab in H. apply in_map_iff in H.
    destruct H as (k & <- & _). unfold stage_ok, z_stage; cbn. auto 10.
  Qed.

  Lemma m_fact_rel al sg x xb old : length old = N + 1 -> Forall stage_ok old ->
    match ric_matrices O LA N 0 (meye O nx (o_sqrt O sg)) d sg (m_Gamma al sg x xb) old with
    | Ok (Some l) => exists l', m_fact al sg x xb = Some l' /\ srel l l' /\ Forall stage_ok l /\
                                length l = N + 1
    | Ok None => m_fact al sg x xb = None
    | _ => False
    end.
  Proof.
    intros H1 H2.
    pose proof (ric_rel sg (m_Gamma al sg x xb) N 0 (meye O nx (o_sqrt O sg)) old
                  (tab (N + 1) (fun _ => z_stage))) as R.
    assert (HL' : length (tab (N + 1) (fun _ => z_stage)) = S N) by (rewrite tab_length; lia).
    specialize (R (Nat.add_0_l N) ltac:(rewrite H1; lia) HL' H2 z_stages_ok).
    unfold m_fact.
    destruct (ric_matrices O LA N 0 _ d sg _ old) as [[l|]|e|u]; try contradiction;
      destruct (ric_matrices O LA N 0 _ d sg _ (tab _ _)) as [[l'|]|e'|u']; cbn [unres];
      try contradiction; try reflexivity.
    destruct R as (R1 & R2 & R3 & R4). exists l'. repeat split; auto. lia.
  Qed.

  Lemma mpc_ls_ok : LSOk (mpcLS O LA) d nz nl nv m_lsize m_ready m_pinit m_pst.
  Proof.
    pose proof (mpc_data_ok O d N nx nu nc Hd) as HDat. fold nz nl nv in HDat.
    constructor.
    - intros al l H. unfold m_ready, m_lsize in *; cbn. auto.
    - intros al l H. apply H.
    - intros l H. exact H.
    - intros al sg c x xb ((H1 & H2 & H3 & H4 & H5 & H6 & H7 & H8 & H9) & HA & HP)
             (X1 & X2 & X3 & X4) (B1 & B2 & B3 & B4).
      destruct c as [cN cx cu cc cz cl cv al' dp wsp g m]; cbn in H1, H2, H3, H4, H5, H6, H7, H8, H9, HA, HP.
      subst cN cx cu cc cz cl cv al' dp.
      cbn [mpcLS ls_init ls_solve]. unfold rc_init, FV;
        cbn [rc_N rc_nx rc_nu rc_nc rc_nz rc_nl rc_nv rc_data rc_alpha rc_ws].
      unfold fv_same; cbn [fv_nz fv_nl fv_nv fv_x].
      rewrite !Nat.eqb_refl. cbn [andb throw_unless rbind]. unfold m_pinit.
      destruct (o_leb O sg (o_zero O)); cbn [negb throw_unless rbind].
      + eexists. split; [reflexivity|]. split; [|discriminate].
        unfold m_ready, m_lsize; cbn. auto 10.
      + cbn [deref_checked rbind].
        rewrite (mo_N _ _ _ _ _ Hd), (mo_nx _ _ _ _ _ Hd), (mo_nu _ _ _ _ _ Hd), (mo_nc _ _ _ _ _ Hd).
        rewrite X4, X3, B3, !Nat.eqb_refl, Nat.leb_refl.
        cbn [andb ub_unless rbind].
        fold (m_Gamma al sg x xb).
        pose proof (m_fact_rel al sg x xb wsp H8 H9) as RF.
        destruct (ric_matrices O LA N 0 _ d sg _ wsp) as [[l|]|e|u]; try contradiction; cbn [rbind].
        * destruct RF as (l' & EF & RS & RO & RL). rewrite EF.
          eexists. split; [reflexivity|]. split; [unfold m_ready, m_lsize; cbn; auto 12|].
          intros _ r dx (R1 & R2 & R3) (D1 & D2 & D3 & D4).
          unfold rc_solve, fr_same, FR; cbn [fv_nz fv_nl fv_nv fr_nz fr_nl fr_nv].
          cbn [rc_N rc_nx rc_nu rc_nc rc_nz rc_nl rc_nv rc_data rc_alpha rc_ws rc_mus rc_gamma].
          rewrite !Nat.eqb_refl. cbn [andb throw_unless rbind deref_checked fr_r fv_x].
          rewrite R1, R2, R3, D1, D2. unfold w_mus at 1; rewrite tab_length.
          rewrite !Nat.eqb_refl. cbn [andb ub_unless rbind].
          set (r3 := vquot O (r_v r) (w_mus O al sg x xb nv)).
          assert (L3 : length r3 = nv) by (unfold r3; autorewrite with vlen; exact R3).
          destruct (gAT_ok (mpcDI O) d nz nl nv HDat r3 (o_mone O) (o_one O) (r_z r)) as [E1 K1]; auto.
          cbn [mpcDI di_gemvAT] in E1. rewrite E1. cbn [rbind].
          set (r1 := gAT (mpcDI O) d r3 (o_mone O) (o_one O) (r_z r)) in *.
          destruct (ric_vectors_len _ _ r1 (vopp O (r_l r)) RS) as [KZ KL].
          pose proof (ric_vectors_rel _ _ r1 (vopp O (r_l r)) RS) as ER.
          unfold m_pst. rewrite EF. fold r3 r1.
          rewrite <- ER.
          destruct (ric_vectors O LA l r1 (vopp O (r_l r)) nx nu) as [dz dl]; cbn [fst snd] in KZ, KL.
          rewrite RL in KZ, KL. fold nz nl in KZ, KL.
          destruct (gA_ok (mpcDI O) d nz nl nv HDat dz (o_one O) (o_zero O) (vconst nv (o_zero O))) as [E2 K2]; auto.
          { apply tab_length. }
          cbn [mpcDI di_gemvA] in E2.
          rewrite (mpc_gemvA_b0 dz (o_one O) r3 (vconst nv (o_zero O))) by (rewrite L3, vconst_len; reflexivity).
          rewrite E2. cbn [rbind].
          destruct (gA_ok (mpcDI O) d nz nl nv HDat dz (o_mone O) (o_zero O) (vconst nv (o_zero O))) as [E3 K3]; auto.
          { apply tab_length. }
          cbn [mpcDI di_gemvA] in E3.
          rewrite (mpc_gemvA_b0 dz (o_mone O) (v_y dx) (vconst nv (o_zero O))) by (rewrite D4, vconst_len; reflexivity).
          rewrite E3. cbn [rbind].
          destruct (ab_ok (mpcDI O) d nz nl nv HDat (o_one O)
                      (gA (mpcDI O) d dz (o_mone O) (o_zero O) (vconst nv (o_zero O)))) as [E4 K4]; auto.
          cbn [mpcDI di_axpyb] in E4. rewrite E4. cbn [rbind].
          split.
          -- unfold fv_set; cbn [fv_nz fv_nl fv_nv fv_data]. do 3 f_equal.
             unfold w_gamma at 1. rewrite tab_length. reflexivity.
          -- unfold var_ok; cbn [v_z v_l v_v v_y]. autorewrite with vlen. auto.
        * rewrite RF. eexists. split; [reflexivity|]. split; [|discriminate].
          unfold m_ready, m_lsize; cbn; auto 12.
    - intros al sg x xb u _ _. unfold m_pinit. destruct (o_leb O sg (o_zero O)); discriminate.
  Qed.
End RiccatiOk.
