(* The modelled Solve, run on a well-sized solver state and well-sized data, computes exactly
   [psolve]: it never reaches undefined behaviour, and what it returns depends only on the
   options, the data, the guess and (explicitly) the stale workspace. *)
From Verif Require Export Pure.

Definition rok {T} (n : nat) (r : res (vec T)) : Prop := exists y, r = Ok y /\ length y = n.

(* every data method succeeds on well-sized arguments *)
Record DataOk {T D : Type} (DI : DataI T D) (d : D) (nz nl nv : nat) : Prop := {
  dk_H : forall x a b y, length x = nz -> length y = nz -> rok nz (di_gemvH DI d x a b y);
  dk_A : forall x a b y, length x = nz -> length y = nv -> rok nv (di_gemvA DI d x a b y);
  dk_G : forall x a b y, length x = nz -> length y = nl -> rok nl (di_gemvG DI d x a b y);
  dk_AT : forall x a b y, length x = nv -> length y = nz -> rok nz (di_gemvAT DI d x a b y);
  dk_GT : forall x a b y, length x = nl -> length y = nz -> rok nz (di_gemvGT DI d x a b y);
  dk_f : forall a y, length y = nz -> rok nz (di_axpyf DI d a y);
  dk_h : forall a y, length y = nl -> rok nl (di_axpyh DI d a y);
  dk_b : forall a y, length y = nv -> rok nv (di_axpyb DI d a y) }.

Definition var_ok {T} (nz nl nv : nat) (x : var T) : Prop :=
  length (v_z x) = nz /\ length (v_l x) = nl /\ length (v_v x) = nv /\ length (v_y x) = nv.
Definition rsd_ok {T} (nz nl nv : nat) (r : rsd T) : Prop :=
  length (r_z r) = nz /\ length (r_l r) = nl /\ length (r_v r) = nv.
Definition ws_ok {T} (nz nl nv : nat) (w : ws T) : Prop :=
  let '(tz, tl, tv) := w in length tz = nz /\ length tl = nl /\ length tv = nv.

(* sizes of the components of a solver object, whatever the data pointers are *)
Definition fv_ok {T D} (nz nl nv : nat) (x : fvar T D) : Prop :=
  fv_nz x = nz /\ fv_nl x = nl /\ fv_nv x = nv /\ var_ok nz nl nv (fv_x x).
Definition fr_ok {T D} (nz nl nv : nat) (r : fres T D) : Prop :=
  fr_nz r = nz /\ fr_nl r = nl /\ fr_nv r = nv /\ rsd_ok nz nl nv (fr_r r).
Definition ff_ok {T D} (nz nl nv : nat) (f : ffeas T D) : Prop :=
  ff_nz f = nz /\ ff_nl f = nl /\ ff_nv f = nv /\ ws_ok nz nl nv (ff_tz f, ff_tl f, ff_tv f).
Definition ast_ok {T D L} (nz nl nv : nat) (lsize : L -> Prop) (s : ast T D L) : Prop :=
  fv_ok nz nl nv (a_xk s) /\ fv_ok nz nl nv (a_xi s) /\ fv_ok nz nl nv (a_xp s) /\
  fv_ok nz nl nv (a_dx s) /\ fr_ok nz nl nv (a_rk s) /\ fr_ok nz nl nv (a_ri s) /\
  ff_ok nz nl nv (a_ff s) /\ lsize (a_ls s).

Section Refine.
  Context {T D L : Type} (O : Ops T) (DI : DataI T D) (LS : LSI T D L).
  Context (d : D) (nz nl nv : nat).

  Definition FV (x : var T) : fvar T D := mkFvar nz nl nv x (PLive d).
  Definition FR (alpha : T) (r : rsd T) : fres T D := mkFres nz nl nv r alpha (PLive d).
  Definition FF (w : ws T) : ffeas T D :=
    let '(tz, tl, tv) := w in mkFfeas nz nl nv tz tl tv (PLive d).

  (* What a linear solver must satisfy. [lsize]: its workspaces have the right sizes;
     [lready al]: moreover it is linked to the data and holds alpha = al. *)
  Record LSOk (lsize : L -> Prop) (lready : T -> L -> Prop)
         (pinit : T -> T -> var T -> var T -> res bool)
         (pst : T -> T -> var T -> var T -> rsd T -> var T) : Prop := {
    lo_ready : forall al l, lsize l -> lready al (ls_link LS (PLive d) (ls_setalpha LS al l));
    lo_size : forall al l, lready al l -> lsize l;
    lo_unlink : forall l, lsize l -> lsize (ls_link LS PDangling l);
    lo_init : forall al sg l x xb, lready al l -> var_ok nz nl nv x -> var_ok nz nl nv xb ->
      exists l', ls_init LS l (FV x) (FV xb) sg = (l', pinit al sg x xb) /\ lready al l' /\
        (pinit al sg x xb = Ok true -> forall r dx, rsd_ok nz nl nv r -> var_ok nz nl nv dx ->
           ls_solve LS l' (FR al r) (FV dx) = Ok (true, FV (pst al sg x xb r)) /\
           var_ok nz nl nv (pst al sg x xb r));
    lo_noub : forall al sg x xb u, var_ok nz nl nv x -> var_ok nz nl nv xb ->
      pinit al sg x xb <> UB u }.

  Context {lsize : L -> Prop} {lready : T -> L -> Prop}
          {pinit : T -> T -> var T -> var T -> res bool}
          {pst : T -> T -> var T -> var T -> rsd T -> var T}.
  Hypothesis (HD : DataOk DI d nz nl nv) (HL : LSOk lsize lready pinit pst) (Hnv : 0 < nv).
  Context (o : params T).

  Notation pb := (prob_of O DI d nz nl nv pinit pst o).
  Notation vok := (var_ok nz nl nv).
  Notation rrok := (rsd_ok nz nl nv).

  (* ---- lengths of the pure operations ---- *)
  Lemma gH_ok x a b y : length x = nz -> length y = nz ->
    di_gemvH DI d x a b y = Ok (gH DI d x a b y) /\ length (gH DI d x a b y) = nz.
  Proof. intros H1 H2. unfold gH. destruct (dk_H _ _ _ _ _ HD x a b y H1 H2) as (w & -> & E). auto. Qed.
  Lemma gA_ok x a b y : length x = nz -> length y = nv ->
    di_gemvA DI d x a b y = Ok (gA DI d x a b y) /\ length (gA DI d x a b y) = nv.
  Proof. intros H1 H2. unfold gA. destruct (dk_A _ _ _ _ _ HD x a b y H1 H2) as (w & -> & E). auto. Qed.
  Lemma gG_ok x a b y : length x = nz -> length y = nl ->
    di_gemvG DI d x a b y = Ok (gG DI d x a b y) /\ length (gG DI d x a b y) = nl.
  Proof. intros H1 H2. unfold gG. destruct (dk_G _ _ _ _ _ HD x a b y H1 H2) as (w & -> & E). auto. Qed.
  Lemma gAT_ok x a b y : length x = nv -> length y = nz ->
    di_gemvAT DI d x a b y = Ok (gAT DI d x a b y) /\ length (gAT DI d x a b y) = nz.
  Proof. intros H1 H2. unfold gAT. destruct (dk_AT _ _ _ _ _ HD x a b y H1 H2) as (w & -> & E). auto. Qed.
  Lemma gGT_ok x a b y : length x = nl -> length y = nz ->
    di_gemvGT DI d x a b y = Ok (gGT DI d x a b y) /\ length (gGT DI d x a b y) = nz.
  Proof. intros H1 H2. unfold gGT. destruct (dk_GT _ _ _ _ _ HD x a b y H1 H2) as (w & -> & E). auto. Qed.
  Lemma af_ok a y : length y = nz -> di_axpyf DI d a y = Ok (af DI d a y) /\ length (af DI d a y) = nz.
  Proof. intros H1. unfold af. destruct (dk_f _ _ _ _ _ HD a y H1) as (w & -> & E). auto. Qed.
  Lemma ah_ok a y : length y = nl -> di_axpyh DI d a y = Ok (ah DI d a y) /\ length (ah DI d a y) = nl.
  Proof. intros H1. unfold ah. destruct (dk_h _ _ _ _ _ HD a y H1) as (w & -> & E). auto. Qed.
  Lemma ab_ok a y : length y = nv -> di_axpyb DI d a y = Ok (ab DI d a y) /\ length (ab DI d a y) = nv.
  Proof. intros H1. unfold ab. destruct (dk_b _ _ _ _ _ HD a y H1) as (w & -> & E). auto. Qed.

  (* discharge one data call in the goal *)
  Ltac dcall :=
    match goal with
    | |- context [di_gemvH DI d ?x ?a ?b ?y] =>
        let E := fresh "E" in let K := fresh "K" in
        destruct (gH_ok x a b y) as [E K]; [autorewrite with vlen; auto; fail.. | rewrite E; cbn [rbind]]
    | |- context [di_gemvA DI d ?x ?a ?b ?y] =>
        let E := fresh "E" in let K := fresh "K" in
        destruct (gA_ok x a b y) as [E K]; [autorewrite with vlen; auto; fail.. | rewrite E; cbn [rbind]]
    | |- context [di_gemvG DI d ?x ?a ?b ?y] =>
        let E := fresh "E" in let K := fresh "K" in
        destruct (gG_ok x a b y) as [E K]; [autorewrite with vlen; auto; fail.. | rewrite E; cbn [rbind]]
    | |- context [di_gemvAT DI d ?x ?a ?b ?y] =>
        let E := fresh "E" in let K := fresh "K" in
        destruct (gAT_ok x a b y) as [E K]; [autorewrite with vlen; auto; fail.. | rewrite E; cbn [rbind]]
    | |- context [di_gemvGT DI d ?x ?a ?b ?y] =>
        let E := fresh "E" in let K := fresh "K" in
        destruct (gGT_ok x a b y) as [E K]; [autorewrite with vlen; auto; fail.. | rewrite E; cbn [rbind]]
    | |- context [di_axpyf DI d ?a ?y] =>
        let E := fresh "E" in let K := fresh "K" in
        destruct (af_ok a y) as [E K]; [autorewrite with vlen; auto; fail.. | rewrite E; cbn [rbind]]
    | |- context [di_axpyh DI d ?a ?y] =>
        let E := fresh "E" in let K := fresh "K" in
        destruct (ah_ok a y) as [E K]; [autorewrite with vlen; auto; fail.. | rewrite E; cbn [rbind]]
    | |- context [di_axpyb DI d ?a ?y] =>
        let E := fresh "E" in let K := fresh "K" in
        destruct (ab_ok a y) as [E K]; [autorewrite with vlen; auto; fail.. | rewrite E; cbn [rbind]]
    end.

  Ltac lens := repeat match goal with
    | H : length ?a = _ |- context [length ?a] => rewrite H end.

  Lemma eqb_lens a b n : a = n -> b = n -> (a =? b)%nat = true.
  Proof. intros -> ->. apply Nat.eqb_refl. Qed.
  Lemma leb_lens a b n : a = n -> b = n -> (a <=? b)%nat = true.
  Proof. intros -> ->. apply Nat.leb_refl. Qed.

  Lemma margin_ok z l v y : length z = nz -> length y = nv ->
    fv_margin O DI (FV (mkVar z l v y)) = Ok (FV (mkVar z l v (pb_margin pb z))) /\
    length (pb_margin pb z) = nv.
  Proof.
    intros Hz Hy. unfold fv_margin, FV; cbn [fv_data fv_x v_z v_l v_v v_y deref_checked rbind].
    rewrite Hy. cbn [pb_margin prob_of]. unfold pmargin. repeat dcall. split; [reflexivity|assumption].
  Qed.

  Lemma fill_ok a x : vok x ->
    fv_fill O DI a (FV x) =
      Ok (FV (mkVar (vconst nz a) (vconst nl a) (vconst nv a) (pb_margin pb (vconst nz a)))) /\
    length (pb_margin pb (vconst nz a)) = nv.
  Proof.
    intros (H1 & H2 & H3 & H4). unfold fv_fill, FV; cbn [fv_x fv_set fv_nz fv_nl fv_nv fv_data].
    rewrite H1, H2, H3. unfold fv_set; cbn [fv_x fv_nz fv_nl fv_nv fv_data].
    apply margin_ok; autorewrite with vlen; auto.
  Qed.

  Lemma axpy_ok a x w : vok x -> vok w ->
    fv_axpy O DI a (FV x) (FV w) = Ok (FV (pb_axpy pb a x w)) /\ vok (pb_axpy pb a x w).
  Proof.
    intros (H1 & H2 & H3 & H4) (G1 & G2 & G3 & G4).
    unfold fv_axpy, FV; cbn [fv_data fv_x deref_checked rbind].
    rewrite (eqb_lens _ _ nz), (eqb_lens _ _ nl), (eqb_lens _ _ nv), (eqb_lens _ _ nv) by assumption.
    cbn [andb ub_unless rbind]. cbn [pb_axpy prob_of]. unfold paxpy. dcall. split; [reflexivity|].
    unfold var_ok; cbn; autorewrite with vlen; auto.
  Qed.

  Lemma inner_ok x xb r : vok x -> vok xb -> rrok r ->
    fr_inner O DI (FV x) (FV xb) (p_sigma0 o) (FR (p_alpha o) r) =
      Ok (FR (p_alpha o) (pb_inner pb x xb)) /\ rrok (pb_inner pb x xb).
  Proof.
    intros (H1 & H2 & H3 & H4) (G1 & G2 & G3 & G4) (R1 & R2 & R3).
    unfold fr_inner, FV, FR; cbn [fv_data fv_x fr_data fr_r fr_nv fr_alpha deref_checked rbind].
    rewrite R1, R2.
    cbn [pb_inner prob_of]. unfold pinnerr, stat_z, stat_l.
    do 4 dcall.
    rewrite (eqb_lens _ _ nz), (eqb_lens _ _ nz) by (autorewrite with vlen; assumption).
    cbn [andb ub_unless rbind].
    do 2 dcall.
    rewrite (eqb_lens _ _ nl), (eqb_lens _ _ nl) by (autorewrite with vlen; assumption).
    cbn [andb ub_unless rbind].
    rewrite H4, H3, G3, R3, Nat.leb_refl, Nat.eqb_refl. cbn [andb ub_unless rbind].
    split; [reflexivity|]. unfold rsd_ok, mk_rsd; cbn [r_z r_l r_v]. autorewrite with vlen. auto.
  Qed.

  Lemma pnr_ok x r : vok x -> rrok r ->
    fr_pnr O DI (FV x) (FR (p_alpha o) r) =
      Ok (FR (p_alpha o) (pb_pnr pb x)) /\ rrok (pb_pnr pb x).
  Proof.
    intros (H1 & H2 & H3 & H4) (R1 & R2 & R3).
    unfold fr_pnr, fr_natural, FV, FR;
      cbn [fv_data fv_x fr_data fr_r fr_nv fr_alpha deref_checked rbind].
    rewrite R1, R2.
    cbn [pb_pnr prob_of]. unfold ppnr, stat_z, stat_l.
    do 4 dcall. do 2 dcall.
    rewrite H4, H3, R3, Nat.leb_refl, Nat.eqb_refl. cbn [andb ub_unless rbind].
    unfold fr_set, mk_rsd; cbn [fr_nz fr_nl fr_nv fr_r fr_alpha fr_data r_z r_l r_v].
    split.
    - do 2 f_equal.
      match goal with |- mkRsd ?a ?b ?u ?c ?e ?f = mkRsd _ _ ?v _ _ _ => assert (u = v) as -> end;
        [|reflexivity].
      apply tab_ext; intros i Hi. rewrite (vget_tab O nv _ i) by exact Hi. reflexivity.
    - unfold rsd_ok; cbn [r_z r_l r_v]. autorewrite with vlen. auto.
  Qed.

  Lemma neg_ok r : rrok r -> rrok (rsd_neg O r).
  Proof. unfold rsd_ok, rsd_neg; cbn. autorewrite with vlen. auto. Qed.
  Lemma proj_ok x : vok x -> vok (proj_duals O x).
  Proof. unfold var_ok, proj_duals; cbn. autorewrite with vlen. auto. Qed.

  Lemma verdict_eq (p q : bool) :
    (if negb p && negb q then FS_FEASIBLE
     else if negb p && negb (negb q) then FS_DUAL
     else if negb (negb p) && negb q then FS_PRIMAL else FS_BOTH) =
    (if p then if q then FS_BOTH else FS_PRIMAL else if q then FS_DUAL else FS_FEASIBLE).
  Proof. destruct p, q; reflexivity. Qed.

  Lemma feas_ok x tol w : vok x -> ws_ok nz nl nv w ->
    ff_check O DI (FV x) tol (FF w) =
      Ok (FF (fst (pfeas O DI d nz nl nv tol w x)), snd (pfeas O DI d nz nl nv tol w x)) /\
    ws_ok nz nl nv (fst (pfeas O DI d nz nl nv tol w x)).
  Proof.
    intros (H1 & H2 & H3 & H4). destruct w as [[tz tl] tv]. intros (W1 & W2 & W3).
    unfold ff_check, FV, FF, pfeas; cbn [fv_data fv_x ff_data ff_tz ff_tl ff_tv deref_checked rbind].
    cbn [fst snd].
    assert (HB : (0 <? nv)%nat = true) by (apply Nat.ltb_lt; exact Hnv).
    repeat (first [progress lens | dcall]; rewrite ?Nat.eqb_refl, ?HB; cbn [andb ub_unless rbind]).
    split; [|unfold ws_ok; repeat split; assumption].
    do 2 f_equal. unfold verdict, primal_bad, dual_bad. cbv zeta.
    apply verdict_eq.
  Qed.

  (* ---- explicit states ---- *)
  Definition St (cb : T) (newton prox : Z) (xk xi xp dx : var T) (rk ri : rsd T) (l : L) (w : ws T)
             (merit : list T) (c : var T) (lg : list (event T)) (tr : list (ghost T)) : ast T D L :=
    mkAst o cb newton prox (FV xk) (FV xi) (FV xp) (FV dx) (FR (p_alpha o) rk) (FR (p_alpha o) ri)
          l (FF w) merit c lg tr.

  Ltac run := cbv beta iota zeta delta [mbind mget_ mmod mlift mret ghost_event log_event rk_pnr ri_inner
      set_opts set_combo set_newton set_prox set_xk set_xi set_xp set_dx set_rk set_ri set_ls set_ff
      set_merit set_caller set_log set_trace
      a_opts a_combo a_newton a_prox a_xk a_xi a_xp a_dx a_rk a_ri a_ls a_ff a_merit a_caller a_log
      a_trace fr_r FR fv_x fv_copy FV St fv_nz fv_nl fv_nv fv_data fst snd].

  Ltac refold := repeat match goal with
    |- context [mkAst o ?cb ?n ?p (mkFvar nz nl nv ?xk (PLive d)) (mkFvar nz nl nv ?xi (PLive d))
                      (mkFvar nz nl nv ?xp (PLive d)) (mkFvar nz nl nv ?dx (PLive d))
                      (mkFres nz nl nv ?rk (p_alpha o) (PLive d))
                      (mkFres nz nl nv ?ri (p_alpha o) (PLive d)) ?l (FF ?w) ?m ?c ?lg ?tr] =>
      change (mkAst o cb n p (mkFvar nz nl nv xk (PLive d)) (mkFvar nz nl nv xi (PLive d))
                      (mkFvar nz nl nv xp (PLive d)) (mkFvar nz nl nv dx (PLive d))
                      (mkFres nz nl nv rk (p_alpha o) (PLive d))
                      (mkFres nz nl nv ri (p_alpha o) (PLive d)) l (FF w) m c lg tr)
      with (St cb n p xk xi xp dx rk ri l w m c lg tr) end.

  Lemma ls_ref fuel : forall j t m0 cm newton prox xk xi xp dx rk ri l w merit c lg tr,
    vok xk -> vok xi -> vok xp -> vok dx -> rrok ri ->
    exists xp' tr' t' j' acc ri',
      pls O o pb fuel j t m0 cm xi xk dx ri = ([], tr', Ok (t', j', acc, ri')) /\
      linesearch O DI fuel j t m0 cm (p_sigma0 o)
        (St (pb_combo pb) newton prox xk xi xp dx rk ri l w merit c lg tr) =
        (St (pb_combo pb) newton prox xk xi xp' dx rk ri' l w merit c lg (tr ++ tr'), Ok (t', j', acc)) /\
      vok xp' /\ rrok ri'.
  Proof.
    induction fuel as [|fuel IH]; intros j t m0 cm newton prox xk xi xp dx rk ri l w merit c lg tr
      Hxk Hxi Hxp Hdx Hri.
    - exists xp, [], t, j, false, ri. cbn. rewrite app_nil_r. auto.
    - cbn [linesearch pls]. unfold St. run.
      destruct (axpy_ok t dx xi Hdx Hxi) as [E1 K1]. unfold FV in E1.
      rewrite E1. run.
      set (xp1 := pb_axpy pb t dx xi) in *.
      destruct (inner_ok xp1 xk ri K1 Hxk Hri) as [E2 K2]. unfold FV, FR in E2.
      rewrite E2. run.
      set (ri1 := pb_inner pb xp1 xk) in *.
      destruct (o_leb O (rsd_merit O ri1) _) eqn:EA.
      + exists xp1, [GMerit xp1 (rsd_merit O ri1)], t, j, true, ri1.
        repeat split; auto; try apply K1; try apply K2.
      + destruct (IH (S j) (o_mul O t (p_beta o)) m0 cm newton prox xk xi xp1 dx rk ri1 l w merit c lg
                     (tr ++ [GMerit xp1 (rsd_merit O ri1)])) as
          (xp' & tr' & t' & j' & acc & ri' & P1 & P2 & P3 & P4); auto.
        exists xp', ([GMerit xp1 (rsd_merit O ri1)] ++ tr'), t', j', acc, ri'.
        split; [|split; [|split; assumption]].
        * cbn [wbind wghost]. rewrite P1. reflexivity.
        * unfold St in P2. unfold FV, FR in P2. rewrite P2. unfold St, FV, FR.
          rewrite app_assoc. reflexivity.
  Qed.

  (* outcome of a sub-computation: matching results, appended log and trace, any other part
     of the state well sized *)
  Lemma step_ref newton prox xk xi xp dx rk ri l w merit c lg tr :
    vok xk -> vok xi -> vok xp -> vok dx -> rrok ri -> lready (p_alpha o) l ->
    match pstep O o pb xi xk ri merit with
    | (lg', tr', Ok (t, x', dx', ri', merit')) =>
        lg' = [] /\ exists xp' l',
        newton_step O DI LS (p_sigma0 o)
          (St (pb_combo pb) newton prox xk xi xp dx rk ri l w merit c lg tr) =
          (St (pb_combo pb) (newton + 1) prox xk x' xp' dx' rk ri' l' w merit' c lg (tr ++ tr'), Ok t) /\
        vok x' /\ vok xp' /\ vok dx' /\ rrok ri' /\ lready (p_alpha o) l'
    | (lg', tr', Throw e) =>
        lg' = [] /\ tr' = [] /\ exists l',
        newton_step O DI LS (p_sigma0 o)
          (St (pb_combo pb) newton prox xk xi xp dx rk ri l w merit c lg tr) =
          (St (pb_combo pb) newton prox xk xi xp dx rk ri l' w merit c lg tr, Throw e) /\
        lready (p_alpha o) l'
    | (_, _, UB _) => False
    end.
  Proof.
    intros Hxk Hxi Hxp Hdx Hri Hl.
    destruct (lo_init _ _ _ _ HL (p_alpha o) (p_sigma0 o) l xi xk Hl Hxi Hxk) as (l' & EI & Hl' & HS).
    pose proof (fun u => lo_noub _ _ _ _ HL (p_alpha o) (p_sigma0 o) xi xk u Hxi Hxk) as NU.
    unfold pstep. cbn [pb_newton prob_of]. unfold pnewton.
    unfold newton_step, St. run.
    unfold FV in EI. rewrite EI. run.
    destruct (pinit (p_alpha o) (p_sigma0 o) xi xk) as [[|]|e|u] eqn:EP.
    - run. cbn [throw_unless]. run.
      destruct (HS eq_refl (rsd_neg O ri) dx (neg_ok _ Hri) Hdx) as [E2 K2].
      unfold FR, FV in E2.
      set (dx1 := pst (p_alpha o) (p_sigma0 o) xi xk (rsd_neg O ri)) in *.
      unfold fr_neg, fr_set. cbn [fr_nz fr_nl fr_nv fr_r fr_alpha fr_data].
      rewrite E2. run. cbn [throw_unless]. run.
      assert (EM : rsd_merit O (rsd_neg O ri) = rsd_merit O ri) by reflexivity.
      rewrite !EM.
      set (mb := InsertMerit (rsd_merit O ri) merit).
      set (m0 := if p_nonmonotone o then MaxMerit O mb else rsd_merit O ri).
      destruct (ls_ref (Z.to_nat (p_max_ls o)) 0 (o_one O) m0 (rsd_merit O ri) (newton + 1) prox
                  xk xi xp dx1 rk (rsd_neg O ri) l' w mb c lg (tr ++ [GLin xi xk])) as
        (xp' & tr' & t' & j' & acc & ri' & P1 & P2 & P3 & P4); auto using neg_ok.
      cbn [wbind wlift wghost]. rewrite P1. cbn [wbind wlift wghost wret].
      destruct (axpy_ok t' dx1 xi K2 Hxi) as [E3 K3].
      split; [reflexivity|]. exists xp', l'. split; [|repeat split; auto; try apply K2; try apply K3; try apply P3; try apply P4].
      unfold St, FV, FR in P2. rewrite P2. run. unfold FV in E3. rewrite E3. run.
      unfold St, FV, FR. repeat (f_equal; try (rewrite <- !app_assoc; reflexivity)).
    - run. cbn [throw_unless wbind wlift]. run. split; [reflexivity|]. split; [reflexivity|].
      exists l'. split; [reflexivity|assumption].
    - run. cbn [wbind wlift]. split; [reflexivity|]. split; [reflexivity|].
      exists l'. split; [reflexivity|assumption].
    - exfalso. exact (NU u eq_refl).
  Qed.

  Definition okst (xk xi xp dx : var T) (rk ri : rsd T) (l : L) (w : ws T) : Prop :=
    vok xk /\ vok xi /\ vok xp /\ vok dx /\ rrok rk /\ rrok ri /\ lready (p_alpha o) l /\
    ws_ok nz nl nv w.
  Definition isSt (s : ast T D L) (c : var T) lg tr : Prop :=
    exists newton prox xk xi xp dx rk ri l w merit,
      s = St (pb_combo pb) newton prox xk xi xp dx rk ri l w merit c lg tr /\
      okst xk xi xp dx rk ri l w.

  Lemma det_line_run i t tol cb newton prox xk xi xp dx rk ri l w merit c lg tr :
    PrintDetailedLine i t (St cb newton prox xk xi xp dx rk ri l w merit c lg tr) =
      (St cb newton prox xk xi xp dx rk ri l w merit c (lg ++ det_line o i t ri) tr, Ok tt) /\
    PrintDetailedFooter O tol (St cb newton prox xk xi xp dx rk ri l w merit c lg tr) =
      (St cb newton prox xk xi xp dx rk ri l w merit c (lg ++ det_footer O o ri tol) tr, Ok tt).
  Proof.
    unfold PrintDetailedLine, PrintDetailedFooter, det_line, det_footer, St. run.
    destruct (is_det (p_display o)); run; rewrite ?app_nil_r; split; reflexivity.
  Qed.
  Lemma iter_run itol cb newton prox xk xi xp dx rk ri l w merit c lg tr :
    PrintIterLine O itol (St cb newton prox xk xi xp dx rk ri l w merit c lg tr) =
      (St cb newton prox xk xi xp dx rk ri l w merit c (lg ++ iter_line O o prox newton rk ri itol) tr,
       Ok tt) /\
    PrintIterHeader (St cb newton prox xk xi xp dx rk ri l w merit c lg tr) =
      (St cb newton prox xk xi xp dx rk ri l w merit c (lg ++ iter_header o) tr, Ok tt) /\
    PrintDetailedHeader O (St cb newton prox xk xi xp dx rk ri l w merit c lg tr) =
      (St cb newton prox xk xi xp dx rk ri l w merit c (lg ++ det_header O o prox newton rk) tr, Ok tt).
  Proof.
    unfold PrintIterLine, PrintIterHeader, PrintDetailedHeader, iter_line, iter_header, det_header, St.
    run.
    repeat split; [destruct (is_iter (p_display o))|destruct (is_iter (p_display o))
                  |destruct (is_det (p_display o))]; run; rewrite ?app_nil_r; reflexivity.
  Qed.
  Lemma output_run e el E0 newton prox xk xi xp dx rk ri l w merit c lg tr :
    exists lg' out, poutput O o pb e el E0 newton prox rk = (lg', [], Ok out) /\
    PrepareOutput O e el E0 (St (pb_combo pb) newton prox xk xi xp dx rk ri l w merit c lg tr) =
      (St (pb_combo pb) newton prox xk xi xp dx rk ri l w merit c (lg ++ lg') tr, Ok out).
  Proof.
    unfold poutput, PrepareOutput, PrintFinal, final_line, St. run. unfold wbind, wlog, wret.
    destruct (ge_final (p_display o)); run; eexists; eexists; (split; [reflexivity|]);
      rewrite ?app_nil_r; reflexivity.
  Qed.

  Lemma inner_ref fuel : forall i t Eo tol Ek newton prox xk xi xp dx rk ri l w merit c lg tr,
    okst xk xi xp dx rk ri l w ->
    match pinner O o pb fuel i t Eo tol Ek xi xk dx ri rk newton merit with
    | (lg', tr', Ok (Eo', x', dx', ri', rk', newton')) =>
        exists xp' l' merit',
        inner_loop O DI LS fuel i t Eo tol (p_sigma0 o) Ek
          (St (pb_combo pb) newton prox xk xi xp dx rk ri l w merit c lg tr) =
          (St (pb_combo pb) newton' prox xk x' xp' dx' rk' ri' l' w merit' c (lg ++ lg') (tr ++ tr'), Ok Eo')
        /\ okst xk x' xp' dx' rk' ri' l' w
    | (lg', tr', Throw e) =>
        exists s', inner_loop O DI LS fuel i t Eo tol (p_sigma0 o) Ek
          (St (pb_combo pb) newton prox xk xi xp dx rk ri l w merit c lg tr) = (s', Throw e) /\
        isSt s' c (lg ++ lg') (tr ++ tr')
    | (_, _, UB _) => False
    end.
  Proof.
    induction fuel as [|fuel IH];
      intros i t Eo tol Ek newton prox xk xi xp dx rk ri l w merit c lg tr Hok.
    - cbn. exists xp, l, merit. rewrite ?app_nil_r. split; [reflexivity|assumption].
    - destruct Hok as (Hxk & Hxi & Hxp & Hdx & Hrk & Hri & Hl & Hw).
      cbn [inner_loop pinner]. run.
      destruct (inner_ok xi xk ri Hxi Hxk Hri) as [E2 K2]. unfold FV, FR in E2.
      rewrite E2. run. clear E2.
      destruct (pnr_ok xi rk Hxi Hrk) as [E3 K3]. unfold FV, FR in E3.
      rewrite E3. run. clear E3.
      set (ri1 := pb_inner pb xi xk) in *. set (rk1 := pb_pnr pb xi) in *.
      set (g := GInner xi (rsd_norm O ri1) (rsd_norm O rk1)).
      refold.
      assert (OK1 : okst xk xi xp dx rk1 ri1 l w) by (unfold okst; auto 10).
      destruct ((_ && _) || _) eqn:ET.
      + cbn [wbind wghost wlog wret].
        destruct (det_line_run i t tol (pb_combo pb) newton prox xk xi xp dx rk1 ri1 l w merit c lg (tr ++ [g])) as [P1 _].
        rewrite P1.
        destruct (det_line_run i t tol (pb_combo pb) newton prox xk xi xp dx rk1 ri1 l w merit c
                    (lg ++ det_line o i t ri1) (tr ++ [g])) as [_ P2].
        rewrite P2. exists xp, l, merit. rewrite ?app_nil_r, !app_assoc, ?app_nil_r.
        split; [reflexivity|assumption].
      + destruct (det_line_run i t tol (pb_combo pb) newton prox xk xi xp dx rk1 ri1 l w merit c lg (tr ++ [g])) as [P1 _].
        rewrite P1. run. refold. clear P1.
        destruct (p_max_newton o <=? newton)%Z eqn:EN.
        * cbn [wbind wghost wlog wret].
          exists xp, l, merit. rewrite ?app_nil_r. split; [reflexivity|assumption].
        * pose proof (step_ref newton prox xk xi xp dx rk1 ri1 l w merit c
                        (lg ++ det_line o i t ri1) (tr ++ [g]) Hxk Hxi Hxp Hdx K2 Hl) as SR.
          destruct (pstep O o pb xi xk ri1 merit) as [[lg1 tr1] [[[[[t1 x1] dx1] ri2] m1]|e|u]].
          -- destruct SR as (-> & xp1 & l1 & SR & Hx1 & Hxp1 & Hdx1 & Hri2 & Hl1).
             rewrite SR.
             specialize (IH (i + 1)%Z t1 (rsd_norm O rk1) tol Ek (newton + 1)%Z prox xk x1 xp1 dx1 rk1
                            ri2 l1 w m1 c (lg ++ det_line o i t ri1) ((tr ++ [g]) ++ tr1)).
             cbn [wbind wghost wlog wret].
             assert (OK2 : okst xk x1 xp1 dx1 rk1 ri2 l1 w) by (unfold okst; auto 10).
             specialize (IH OK2).
             destruct (pinner O o pb fuel _ _ _ _ _ _ _ _ _ _ _ _)
               as [[lg2 tr2] [[[[[[Eo2 x2] dx2] ri3] rk2] n2]|e|u]].
             ++ destruct IH as (xp2 & l2 & m2 & IH & OK3). exists xp2, l2, m2.
                split; [|assumption]. rewrite IH. cbn [app]. rewrite <- !app_assoc. reflexivity.
             ++ destruct IH as (s' & IH & IS). exists s'. split; [exact IH|].
                cbn [app]. rewrite <- !app_assoc in IS. exact IS.
             ++ exact IH.
          -- destruct SR as (-> & -> & l1 & SR & Hl1). rewrite SR.
             cbn [wbind wghost wlog wret app]. rewrite ?app_nil_r.
             eexists. split; [reflexivity|]. unfold isSt. do 11 eexists. split; [reflexivity|].
             unfold okst; auto 10.
          -- exact SR.
  Qed.

  Lemma sub_ref tol Ek newton prox xk xi xp dx rk ri l w merit c lg tr :
    okst xk xi xp dx rk ri l w -> xi = xk ->
    match psub O o pb tol Ek xk dx ri rk newton with
    | (lg', tr', Ok (Eo', x', dx', ri', rk', newton')) =>
        exists xp' l' merit',
        SolveProximalSubproblem O DI LS tol (p_sigma0 o) Ek
          (St (pb_combo pb) newton prox xk xi xp dx rk ri l w merit c lg tr) =
          (St (pb_combo pb) newton' prox xk x' xp' dx' rk' ri' l' w merit' c (lg ++ lg') (tr ++ tr'), Ok Eo')
        /\ okst xk x' xp' dx' rk' ri' l' w
    | (lg', tr', Throw e) =>
        exists s', SolveProximalSubproblem O DI LS tol (p_sigma0 o) Ek
          (St (pb_combo pb) newton prox xk xi xp dx rk ri l w merit c lg tr) = (s', Throw e) /\
        isSt s' c (lg ++ lg') (tr ++ tr')
    | (_, _, UB _) => False
    end.
  Proof.
    intros Hok ->. unfold SolveProximalSubproblem, psub. run. refold.
    pose proof (inner_ref (Z.to_nat (p_max_inner o)) 0%Z (o_one O) (o_zero O) tol Ek newton prox
                  xk xk xp dx rk ri l w (repeat (o_zero O) 5) c lg tr Hok) as IR.
    destruct (pinner O o pb _ _ _ _ _ _ _ _ _ _ _ _ _)
      as [[lg2 tr2] [[[[[[Eo2 x2] dx2] ri3] rk2] n2]|e|u]].
    - destruct IR as (xp' & l' & m' & -> & OK'). cbn [wbind wghost wret].
      exists xp', l', m'. run. unfold fv_project, fv_set. cbn [fv_nz fv_nl fv_nv fv_x fv_data].
      rewrite ?app_nil_r, <- !app_assoc. split; [reflexivity|].
      destruct OK' as (O1 & O2 & O3). split; [exact O1|]. split; [apply proj_ok; exact O2|exact O3].
    - destruct IR as (s' & -> & IS). cbn [wbind]. exists s'. split; [reflexivity|exact IS].
    - exact IR.
  Qed.

  (* the caller's vectors accept the write-back *)
  Definition writable (k : vkind) (c : var T) : Prop :=
    match k with Owned => True | Mapped => vok c end.

  Lemma write_run k cb newton prox xk xi xp dx rk ri l w merit c lg tr x :
    writable k c -> vok x ->
    WriteVariable k (FV x) (St cb newton prox xk xi xp dx rk ri l w merit c lg tr) =
      (St cb newton prox xk xi xp dx rk ri l w merit x lg tr, Ok tt).
  Proof.
    intros Hw (H1 & H2 & H3 & H4). unfold WriteVariable. run. unfold assign_vec.
    destruct k; cbn [writable] in Hw.
    - destruct x; reflexivity.
    - destruct Hw as (G1 & G2 & G3 & G4). rewrite G1, G2, G3, G4, H1, H2, H3, H4, !Nat.eqb_refl.
      destruct x; reflexivity.
  Qed.

  Lemma feas_run cb newton prox xk xi xp dx rk ri l w merit c lg tr :
    vok dx -> ws_ok nz nl nv w ->
    CheckForInfeasibility O DI (St cb newton prox xk xi xp dx rk ri l w merit c lg tr) =
      (St cb newton prox xk xi xp dx rk ri l (fst (pb_feas pb w dx)) merit c lg tr,
       Ok (flag_of (snd (pb_feas pb w dx)))) /\ ws_ok nz nl nv (fst (pb_feas pb w dx)).
  Proof.
    intros Hd Hw. unfold CheckForInfeasibility. run.
    destruct (feas_ok dx (p_infeas_tol o) w Hd Hw) as [E K]. unfold FV in E. rewrite E. run.
    split; [reflexivity|exact K].
  Qed.

  Ltac okk := unfold okst; auto 10.

  Lemma prox_ref k el E0 fuel : forall itol newton prox xk xi xp dx rk ri l w merit c lg tr,
    writable k c -> okst xk xi xp dx rk ri l w ->
    match pprox O o pb el E0 fuel itol xk dx ri rk w newton prox with
    | (lg', tr', Ok (out, xw)) =>
        exists s', prox_loop O DI LS k el (p_sigma0 o) E0 fuel itol
          (St (pb_combo pb) newton prox xk xi xp dx rk ri l w merit c lg tr) = (s', Ok out) /\
        isSt s' xw (lg ++ lg') (tr ++ tr') /\ vok xw
    | (lg', tr', Throw e) =>
        exists s', prox_loop O DI LS k el (p_sigma0 o) E0 fuel itol
          (St (pb_combo pb) newton prox xk xi xp dx rk ri l w merit c lg tr) = (s', Throw e) /\
        isSt s' c (lg ++ lg') (tr ++ tr')
    | (_, _, UB _) => False
    end.
  Proof.
    induction fuel as [|fuel IH];
      intros itol newton prox xk xi xp dx rk ri l w merit c lg tr Hwr Hok.
    - cbn [prox_loop pprox].
      destruct (output_run MAXITERATIONS el E0 newton prox xk xi xp dx rk ri l w merit c lg tr)
        as (lg' & out & P1 & P2).
      rewrite P1. cbn [wbind wret]. run. refold. rewrite P2. run. refold.
      fold (FV xk). rewrite write_run; [|assumption|apply Hok].
      eexists. split; [reflexivity|]. rewrite ?app_nil_r. split; [|apply Hok].
      unfold isSt. do 11 eexists. split; [reflexivity|exact Hok].
    - destruct Hok as (Hxk & Hxi & Hxp & Hdx & Hrk & Hri & Hl & Hw).
      cbn [prox_loop pprox]. run.
      destruct (pnr_ok xk rk Hxk Hrk) as [E3 K3]. unfold FV, FR in E3.
      rewrite E3. run. clear E3. set (rk1 := pb_pnr pb xk) in *. refold.
      unfold fv_norm. run. refold.
      destruct (o_leb O (rsd_norm O rk1) (pb_combo pb) || o_leb O (var_norm O dx) (p_stall_tol o)) eqn:ET.
      + destruct (iter_run itol (pb_combo pb) newton prox xk xi xp dx rk1 ri l w merit c lg tr) as [-> _].
        set (lg1 := lg ++ _).
        destruct (output_run SUCCESS el E0 newton prox xk xi xp dx rk1 ri l w merit c lg1 tr)
          as (lg' & out & P1 & P2).
        rewrite P1, P2. cbn [wbind wret wlog].
        fold (FV xk). rewrite write_run by assumption.
        eexists. split; [reflexivity|]. split; [|assumption].
        unfold lg1. rewrite ?app_nil_r, <- !app_assoc. cbn [app]. rewrite ?app_nil_r.
        unfold isSt. do 11 eexists. split; [reflexivity|okk].
      + destruct (iter_run itol (pb_combo pb) newton prox xk xi xp dx rk1 ri l w merit c lg tr)
          as [_ [_ ->]].
        set (lg1 := lg ++ _).
        destruct (iter_run itol (pb_combo pb) newton prox xk xi xp dx rk1 ri l w merit c lg1 tr)
          as [-> _].
        set (lg2 := lg1 ++ _). run.
        destruct (saturate O (o_mul O itol (p_delta o)) (p_inner_tol_min o) (rsd_norm O rk1))
          as [it1|e|u] eqn:ES.
        2: { refold. cbn [wbind wret wlog wlift]. eexists. split; [reflexivity|].
             unfold lg2, lg1. rewrite ?app_nil_r, <- !app_assoc.
             unfold isSt. do 11 eexists. split; [reflexivity|okk]. }
        2: { unfold saturate in ES. destruct (o_ltb _ _ _); discriminate ES. }
        refold. set (tr1 := tr ++ _).
        assert (OK1 : okst xk xk xp dx rk1 ri l w) by okk.
        pose proof (sub_ref it1 (rsd_norm O rk1) newton prox xk xk xp dx rk1 ri l w merit c lg2 tr1
                      OK1 eq_refl) as SR.
        cbn [wbind wret wlog wlift wghost].
        destruct (psub O o pb it1 (rsd_norm O rk1) xk dx ri rk1 newton)
          as [[lg3 tr3] [[[[[[Eo x1] dx1] ri1] rk2] n1]|e|u]].
        2: { destruct SR as (s' & -> & IS). exists s'. split; [reflexivity|].
             unfold lg2, lg1, tr1 in IS. rewrite ?app_nil_r. rewrite <- !app_assoc in IS.
             rewrite <- !app_assoc. exact IS. }
        2: { exact SR. }
        destruct SR as (xp1 & l1 & m1 & -> & OK2).
        cbn [wbind wret wlog wlift wghost].
        destruct OK2 as (_ & Hx1 & Hxp1 & Hdx1 & Hrk2 & Hri1 & Hl1 & _).
        run. destruct (p_max_newton o <=? n1)%Z eqn:EN.
        * destruct (o_ltb O Eo (rsd_norm O rk1)) eqn:EB.
          -- refold. fold (FV x1). rewrite write_run by assumption. run.
             destruct (pnr_ok x1 rk2 Hx1 Hrk2) as [E4 K4]. unfold FV, FR in E4. rewrite E4. run. refold.
             match goal with |- context [PrepareOutput O _ _ _ (St _ _ _ ?a ?b ?c' ?e ?r1 ?r2 ?f ?g ?h ?i ?j ?kk)] =>
               destruct (output_run MAXITERATIONS el E0 n1 prox a b c' e r1 r2 f g h i j kk)
                 as (lg' & out & P1 & P2) end.
             rewrite P1, P2. cbn [wbind wret wlog wlift wghost].
             eexists. split; [reflexivity|]. split; [|assumption].
             unfold lg2, lg1, tr1. rewrite ?app_nil_r, <- !app_assoc. cbn [app].
             unfold isSt. do 11 eexists. split; [reflexivity|okk].
          -- refold. fold (FV xk). rewrite write_run by assumption. run.
             destruct (pnr_ok xk rk2 Hxk Hrk2) as [E4 K4]. unfold FV, FR in E4. rewrite E4. run. refold.
             match goal with |- context [PrepareOutput O _ _ _ (St _ _ _ ?a ?b ?c' ?e ?r1 ?r2 ?f ?g ?h ?i ?j ?kk)] =>
               destruct (output_run MAXITERATIONS el E0 n1 prox a b c' e r1 r2 f g h i j kk)
                 as (lg' & out & P1 & P2) end.
             rewrite P1, P2. cbn [wbind wret wlog wlift wghost].
             eexists. split; [reflexivity|]. split; [|assumption].
             unfold lg2, lg1, tr1. rewrite ?app_nil_r, <- !app_assoc. cbn [app].
             unfold isSt. do 11 eexists. split; [reflexivity|okk].
        * destruct (axpy_ok (o_mone O) xk x1 Hxk Hx1) as [E5 K5]. unfold FV in E5. rewrite E5. run.
          set (dx2 := pb_axpy pb (o_mone O) xk x1) in *. refold.
          set (tr2 := (tr1 ++ tr3) ++ _). set (lg4 := lg2 ++ lg3).
          (* the feasibility check *)
          assert (FC : exists w1, ws_ok nz nl nv w1 /\
            (let '(w0, fs) := if p_check_feas o then pb_feas pb w dx2 else (w, FS_FEASIBLE) in
             w0 = w1 /\
             (if p_check_feas o then CheckForInfeasibility O DI else mret SUCCESS)
               (St (pb_combo pb) n1 prox xk x1 xp1 dx2 rk2 ri1 l1 w m1 c lg4 tr2) =
             (St (pb_combo pb) n1 prox xk x1 xp1 dx2 rk2 ri1 l1 w1 m1 c lg4 tr2, Ok (flag_of fs)))).
          { destruct (p_check_feas o).
            - destruct (feas_run (pb_combo pb) n1 prox xk x1 xp1 dx2 rk2 ri1 l1 w m1 c lg4 tr2 K5 Hw)
                as [F1 F2].
              exists (fst (pb_feas pb w dx2)). split; [exact F2|].
              destruct (pb_feas pb w dx2) as [w0 fs]. cbn [fst snd] in *. split; [reflexivity|exact F1].
            - exists w. split; [exact Hw|]. split; reflexivity. }
          destruct FC as (w1 & Hw1 & FC).
          destruct (if p_check_feas o then pb_feas pb w dx2 else (w, FS_FEASIBLE)) as [w0 fs].
          destruct FC as [-> FC]. run. refold.
          match goal with |- context [if p_check_feas o then ?A else ?B] =>
            change (if p_check_feas o then A else B) with
                   (if p_check_feas o then CheckForInfeasibility (L:=L) O DI else mret SUCCESS) end.
          rewrite FC.
          destruct (flag_of fs) eqn:EF.
          { run. refold.
            assert (OK3 : okst x1 x1 xp1 dx2 rk2 ri1 l1 w1) by okk.
            specialize (IH it1 n1 (prox + 1)%Z x1 x1 xp1 dx2 rk2 ri1 l1 w1 m1 c lg4 tr2 Hwr OK3).
            destruct (pprox O o pb el E0 fuel it1 x1 dx2 ri1 rk2 w1 n1 (prox + 1)%Z)
              as [[lg5 tr5] [[out xw]|e|u]].
            - destruct IH as (s' & IH & IS & V). exists s'. split; [exact IH|]. split; [|exact V].
              unfold lg4, lg2, lg1, tr2, tr1 in IS. rewrite ?app_nil_r, <- !app_assoc in IS.
              rewrite <- !app_assoc. exact IS.
            - destruct IH as (s' & IH & IS). exists s'. split; [exact IH|].
              unfold lg4, lg2, lg1, tr2, tr1 in IS. rewrite ?app_nil_r, <- !app_assoc in IS.
              rewrite <- !app_assoc. exact IS.
            - exact IH. }
          { destruct fs; discriminate EF. }
          { destruct fs; discriminate EF. }
          all: match goal with |- context [PrepareOutput O ?ef _ _ (St _ _ _ ?a ?b ?c' ?e ?r1 ?r2 ?f ?g ?h ?i ?j ?kk)] =>
               destruct (output_run ef el E0 n1 prox a b c' e r1 r2 f g h i j kk)
                 as (lg' & out & P1 & P2) end;
             rewrite P1, P2; cbn [wbind wret wlog wlift wghost]; run; refold;
             fold (FV dx2); rewrite write_run by assumption;
             eexists; (split; [reflexivity|]); (split; [|assumption]);
             unfold lg4, lg2, lg1, tr2, tr1; rewrite ?app_nil_r, <- !app_assoc; cbn [app];
             rewrite ?app_nil_r;
             unfold isSt; do 11 eexists; (split; [reflexivity|okk]).
  Qed.

  (* a mapped y of the wrong length: the caller's other vectors fit *)
  Definition unwritable (c : var T) : Prop :=
    length (v_z c) = nz /\ length (v_l c) = nl /\ length (v_v c) = nv /\ length (v_y c) <> nv.
  Lemma write_bad cb newton prox xk xi xp dx rk ri l w merit c lg tr x :
    unwritable c -> vok x ->
    WriteVariable Mapped (FV x) (St cb newton prox xk xi xp dx rk ri l w merit c lg tr) =
      (St cb newton prox xk xi xp dx rk ri l w merit c lg tr, UB UBSize).
  Proof.
    intros (G1 & G2 & G3 & G4) (H1 & H2 & H3 & H4). unfold WriteVariable. run. unfold assign_vec.
    rewrite G1, G2, G3, H1, H2, H3, H4, !Nat.eqb_refl. apply Nat.eqb_neq in G4. rewrite G4. reflexivity.
  Qed.
  Lemma prox_bad el E0 fuel : forall itol newton prox xk xi xp dx rk ri l w merit c lg tr,
    unwritable c -> okst xk xi xp dx rk ri l w ->
    match pprox O o pb el E0 fuel itol xk dx ri rk w newton prox with
    | (_, _, Ok _) =>
        exists s', prox_loop O DI LS Mapped el (p_sigma0 o) E0 fuel itol
          (St (pb_combo pb) newton prox xk xi xp dx rk ri l w merit c lg tr) = (s', UB UBSize) /\ a_caller s' = c
    | (lg', tr', Throw e) =>
        exists s', prox_loop O DI LS Mapped el (p_sigma0 o) E0 fuel itol
          (St (pb_combo pb) newton prox xk xi xp dx rk ri l w merit c lg tr) = (s', Throw e) /\
        isSt s' c (lg ++ lg') (tr ++ tr')
    | (_, _, UB _) => False
    end.
  Proof.
    induction fuel as [|fuel IH];
      intros itol newton prox xk xi xp dx rk ri l w merit c lg tr Hwr Hok.
    - cbn [prox_loop pprox].
      destruct (output_run MAXITERATIONS el E0 newton prox xk xi xp dx rk ri l w merit c lg tr)
        as (lg' & out & P1 & P2).
      rewrite P1. cbn [wbind wret]. run. refold. rewrite P2. run. refold.
      fold (FV xk). rewrite write_bad; [|assumption|apply Hok].
      eexists. split; reflexivity.
    - destruct Hok as (Hxk & Hxi & Hxp & Hdx & Hrk & Hri & Hl & Hw).
      cbn [prox_loop pprox]. run.
      destruct (pnr_ok xk rk Hxk Hrk) as [E3 K3]. unfold FV, FR in E3.
      rewrite E3. run. clear E3. set (rk1 := pb_pnr pb xk) in *. refold.
      unfold fv_norm. run. refold.
      destruct (o_leb O (rsd_norm O rk1) (pb_combo pb) || o_leb O (var_norm O dx) (p_stall_tol o)) eqn:ET.
      + destruct (iter_run itol (pb_combo pb) newton prox xk xi xp dx rk1 ri l w merit c lg tr) as [-> _].
        set (lg1 := lg ++ _).
        destruct (output_run SUCCESS el E0 newton prox xk xi xp dx rk1 ri l w merit c lg1 tr)
          as (lg' & out & P1 & P2).
        rewrite P1, P2. cbn [wbind wret wlog].
        fold (FV xk). rewrite write_bad by assumption. eexists. split; reflexivity.
      + destruct (iter_run itol (pb_combo pb) newton prox xk xi xp dx rk1 ri l w merit c lg tr)
          as [_ [_ ->]].
        set (lg1 := lg ++ _).
        destruct (iter_run itol (pb_combo pb) newton prox xk xi xp dx rk1 ri l w merit c lg1 tr)
          as [-> _].
        set (lg2 := lg1 ++ _). run.
        destruct (saturate O (o_mul O itol (p_delta o)) (p_inner_tol_min o) (rsd_norm O rk1))
          as [it1|e|u] eqn:ES.
        2: { refold. cbn [wbind wret wlog wlift]. eexists. split; [reflexivity|].
             unfold lg2, lg1. rewrite ?app_nil_r, <- !app_assoc.
             unfold isSt. do 11 eexists. split; [reflexivity|okk]. }
        2: { unfold saturate in ES. destruct (o_ltb _ _ _); discriminate ES. }
        refold. set (tr1 := tr ++ _).
        assert (OK1 : okst xk xk xp dx rk1 ri l w) by okk.
        pose proof (sub_ref it1 (rsd_norm O rk1) newton prox xk xk xp dx rk1 ri l w merit c lg2 tr1
                      OK1 eq_refl) as SR.
        cbn [wbind wret wlog wlift wghost].
        destruct (psub O o pb it1 (rsd_norm O rk1) xk dx ri rk1 newton)
          as [[lg3 tr3] [[[[[[Eo x1] dx1] ri1] rk2] n1]|e|u]].
        2: { destruct SR as (s' & -> & IS). exists s'. split; [reflexivity|].
             unfold lg2, lg1, tr1 in IS. rewrite ?app_nil_r. rewrite <- !app_assoc in IS.
             rewrite <- !app_assoc. exact IS. }
        2: { exact SR. }
        destruct SR as (xp1 & l1 & m1 & -> & OK2).
        cbn [wbind wret wlog wlift wghost].
        destruct OK2 as (_ & Hx1 & Hxp1 & Hdx1 & Hrk2 & Hri1 & Hl1 & _).
        run. destruct (p_max_newton o <=? n1)%Z eqn:EN.
        * destruct (output_run MAXITERATIONS el E0 n1 prox xk x1 xp1 dx1 (pb_pnr pb (if o_ltb O Eo (rsd_norm O rk1) then x1 else xk)) ri1 l1 w m1 c lg2 tr1)
            as (lg' & out & P1 & _).
          destruct (o_ltb O Eo (rsd_norm O rk1)) eqn:EB; refold; fold (FV x1); fold (FV xk); rewrite write_bad by assumption;
            rewrite P1; cbn [wbind wret wlog wlift wghost]; eexists; split; reflexivity.
        * destruct (axpy_ok (o_mone O) xk x1 Hxk Hx1) as [E5 K5]. unfold FV in E5. rewrite E5. run.
          set (dx2 := pb_axpy pb (o_mone O) xk x1) in *. refold.
          set (tr2 := (tr1 ++ tr3) ++ _). set (lg4 := lg2 ++ lg3).
          (* the feasibility check *)
          assert (FC : exists w1, ws_ok nz nl nv w1 /\
            (let '(w0, fs) := if p_check_feas o then pb_feas pb w dx2 else (w, FS_FEASIBLE) in
             w0 = w1 /\
             (if p_check_feas o then CheckForInfeasibility O DI else mret SUCCESS)
               (St (pb_combo pb) n1 prox xk x1 xp1 dx2 rk2 ri1 l1 w m1 c lg4 tr2) =
             (St (pb_combo pb) n1 prox xk x1 xp1 dx2 rk2 ri1 l1 w1 m1 c lg4 tr2, Ok (flag_of fs)))).
          { destruct (p_check_feas o).
            - destruct (feas_run (pb_combo pb) n1 prox xk x1 xp1 dx2 rk2 ri1 l1 w m1 c lg4 tr2 K5 Hw)
                as [F1 F2].
              exists (fst (pb_feas pb w dx2)). split; [exact F2|].
              destruct (pb_feas pb w dx2) as [w0 fs]. cbn [fst snd] in *. split; [reflexivity|exact F1].
            - exists w. split; [exact Hw|]. split; reflexivity. }
          destruct FC as (w1 & Hw1 & FC).
          destruct (if p_check_feas o then pb_feas pb w dx2 else (w, FS_FEASIBLE)) as [w0 fs].
          destruct FC as [-> FC]. run. refold.
          match goal with |- context [if p_check_feas o then ?A else ?B] =>
            change (if p_check_feas o then A else B) with
                   (if p_check_feas o then CheckForInfeasibility (L:=L) O DI else mret SUCCESS) end.
          rewrite FC.
          destruct (flag_of fs) eqn:EF.
          { run. refold.
            assert (OK3 : okst x1 x1 xp1 dx2 rk2 ri1 l1 w1) by okk.
            specialize (IH it1 n1 (prox + 1)%Z x1 x1 xp1 dx2 rk2 ri1 l1 w1 m1 c lg4 tr2 Hwr OK3).
            destruct (pprox O o pb el E0 fuel it1 x1 dx2 ri1 rk2 w1 n1 (prox + 1)%Z)
              as [[lg5 tr5] [[out xw]|e|u]].
            - exact IH.
            - destruct IH as (s' & IH & IS). exists s'. split; [exact IH|].
              unfold lg4, lg2, lg1, tr2, tr1 in IS. rewrite ?app_nil_r, <- !app_assoc in IS.
              rewrite <- !app_assoc. exact IS.
            - exact IH. }
          { destruct fs; discriminate EF. }
          { destruct fs; discriminate EF. }
          all: match goal with |- context [PrepareOutput O ?ef _ _ (St _ _ _ ?a ?b ?c' ?e ?r1 ?r2 ?f ?g ?h ?i ?j ?kk)] =>
               destruct (output_run ef el E0 n1 prox a b c' e r1 r2 f g h i j kk)
                 as (lg' & out & P1 & P2) end;
             rewrite P1, P2; cbn [wbind wret wlog wlift wghost]; run; refold;
             fold (FV dx2); rewrite write_bad by assumption; eexists; split; reflexivity.
  Qed.

  Definition stale_of (s : ast T D L) : rsd T := fr_r (fr_fill (o_zero O) (a_ri s)).
  Definition ws_of (s : ast T D L) : ws T := (ff_tz (a_ff s), ff_tl (a_ff s), ff_tv (a_ff s)).
  Definition guess_ok (c : var T) : Prop :=
    length (v_z c) = nz /\ length (v_l c) = nl /\ length (v_v c) = nv.

  Lemma fill_rr a (r : fres T D) : rrok (fr_r r) -> rrok (fr_r (fr_fill a r)).
  Proof.
    intros (H1 & H2 & H3). unfold fr_fill, fr_set, rsd_ok; cbn. autorewrite with vlen. auto.
  Qed.

  Lemma solve_ref k el s :
    ast_ok nz nl nv lsize s -> a_opts s = o -> guess_ok (a_caller s) -> writable k (a_caller s) ->
    match psolve O o pb nz nl nv el (stale_of s) (ws_of s) (a_caller s) with
    | (lg', tr', Ok (out, xw)) =>
        exists s', Solve O DI LS d k el s = (s', Ok out) /\
        isSt s' xw (a_log s ++ lg') (a_trace s ++ tr') /\ vok xw
    | (lg', tr', Throw e) =>
        exists s', Solve O DI LS d k el s = (s', Throw e) /\
        isSt s' (a_caller s) (a_log s ++ lg') (a_trace s ++ tr')
    | (_, _, UB _) => False
    end.
  Proof.
    destruct s as [o' cb n p xk xi xp dx rk ri l ff merit c lg tr].
    unfold ast_ok; cbn [a_opts a_caller a_xk a_xi a_xp a_dx a_rk a_ri a_ff a_ls a_log a_trace].
    intros (Hxk & Hxi & Hxp & Hdx & Hrk & Hri & Hff & Hl) -> (G1 & G2 & G3) Hwr.
    destruct xk as [m1 m2 m3 xk pxk], xi as [m4 m5 m6 xi pxi], xp as [m7 m8 m9 xp pxp],
      dx as [m10 m11 m12 dx pdx], rk as [m13 m14 m15 rk ark prk], ri as [m16 m17 m18 ri ari pri],
      ff as [m19 m20 m21 tz tl tv pff].
    unfold fv_ok, fr_ok, ff_ok in *; cbn [fv_nz fv_nl fv_nv fv_x fr_nz fr_nl fr_nv fr_r ff_nz ff_nl ff_nv ff_tz ff_tl ff_tv] in *.
    destruct Hxk as (-> & -> & -> & Hxk), Hxi as (-> & -> & -> & Hxi), Hxp as (-> & -> & -> & Hxp),
      Hdx as (-> & -> & -> & Hdx), Hrk as (-> & -> & -> & Hrk), Hri as (-> & -> & -> & Hri),
      Hff as (-> & -> & -> & Hw).
    unfold Solve, link_all, set_alphas, fv_link, fr_link, ff_link, fr_setalpha, CopyIntoVariable, fv_set.
    run. cbn [fr_nz fr_nl fr_nv fr_alpha fr_data ff_nz ff_nl ff_nv ff_tz ff_tl ff_tv].
    pose proof (lo_ready _ _ _ _ HL (p_alpha o) l Hl) as Hr.
    set (l1 := ls_link LS (PLive d) (ls_setalpha LS (p_alpha o) l)) in *.
    destruct (margin_ok (v_z c) (v_l c) (v_v c) (v_y xk) G1 (proj2 (proj2 (proj2 Hxk)))) as [E1 K1].
    unfold FV in E1. rewrite E1. run.
    destruct (fill_ok (o_one O) dx Hdx) as [E2 K2]. unfold FV in E2. rewrite E2. run.
    unfold psolve. fold (pstart pb c). set (x0 := pstart pb c) in *.
    assert (Hx0 : vok x0) by (unfold x0, pstart, var_ok; cbn; auto).
    destruct (pnr_ok x0 rk Hx0 Hrk) as [E3 K3]. unfold FV, FR in E3. rewrite E3. run.
    change (combo_of O DI o d) with (pb_combo pb).
    fold (pones O pb nz nl nv).
    assert (Hone : vok (pones O pb nz nl nv)).
    { unfold pones, var_ok; cbn [v_z v_l v_v v_y]. autorewrite with vlen. auto. }
    unfold stale_of, ws_of; cbn [a_ri a_ff ff_tz ff_tl ff_tv].
    assert (Hst : rrok (fr_r (fr_fill (o_zero O) (mkFres nz nl nv ri ari pri : fres T D)))).
    { apply fill_rr. exact Hri. }
    unfold fr_fill in Hst |- *. unfold fr_set in Hst |- *.
    cbn [fr_r fr_nz fr_nl fr_nv fr_alpha fr_data] in Hst |- *.
    match type of Hst with rsd_ok _ _ _ ?x => set (ri0 := x) in * end.
    change (mkFfeas nz nl nv tz tl tv (PLive d)) with (FF (tz, tl, tv)).
    destruct (saturate O (rsd_norm O (pb_pnr pb x0)) (p_inner_tol_min o) (p_inner_tol_max o))
      as [it|e|u] eqn:ES.
    2: { cbn [wbind wlift]. eexists. split; [reflexivity|]. rewrite ?app_nil_r. refold.
         unfold isSt. do 11 eexists. split; [reflexivity|okk]. }
    2: { unfold saturate in ES. destruct (o_ltb _ _ _); discriminate ES. }
    refold.
    match goal with |- context [PrintIterHeader (St ?a ?b ?c' ?d' ?e ?f ?g ?h ?i ?j ?k' ?l' ?m ?n' ?q)] =>
      destruct (iter_run it a b c' d' e f g h i j k' l' m n' q) as [_ [PI _]] end.
    rewrite PI. cbn [wbind wlift wlog].
    match goal with |- context [prox_loop O DI LS k el (p_sigma0 o) ?E0 ?fu it (St _ _ _ ?d' ?e ?f ?g ?h ?i ?j ?k' ?l' ?m ?n' ?q)] =>
      pose proof (prox_ref k el E0 fu it 0%Z 0%Z d' e f g h i j k' l' m n' q Hwr) as PR end.
    assert (OK0 : okst x0 x0 xp (pones O pb nz nl nv) (pb_pnr pb x0) ri0 l1 (tz, tl, tv)) by okk.
    specialize (PR OK0).
    destruct (pprox O o pb el _ _ it x0 _ ri0 _ _ _ _) as [[lg' tr'] [[out xw]|e|u]].
    - destruct PR as (s' & PR & IS & V). exists s'. split; [exact PR|]. split; [|exact V].
      rewrite <- !app_assoc in IS. cbn [app] in *. exact IS.
    - destruct PR as (s' & PR & IS). exists s'. split; [exact PR|].
      rewrite <- !app_assoc in IS. cbn [app] in *. exact IS.
    - exact PR.
  Qed.

  Lemma solve_bad el s :
    ast_ok nz nl nv lsize s -> a_opts s = o -> unwritable (a_caller s) ->
    match psolve O o pb nz nl nv el (stale_of s) (ws_of s) (a_caller s) with
    | (_, _, Ok _) =>
        exists s', Solve O DI LS d Mapped el s = (s', UB UBSize) /\ a_caller s' = a_caller s
    | (lg', tr', Throw e) =>
        exists s', Solve O DI LS d Mapped el s = (s', Throw e) /\
        isSt s' (a_caller s) (a_log s ++ lg') (a_trace s ++ tr')
    | (_, _, UB _) => False
    end.
  Proof.
    destruct s as [o' cb n p xk xi xp dx rk ri l ff merit c lg tr].
    unfold ast_ok; cbn [a_opts a_caller a_xk a_xi a_xp a_dx a_rk a_ri a_ff a_ls a_log a_trace].
    intros (Hxk & Hxi & Hxp & Hdx & Hrk & Hri & Hff & Hl) -> Hwr. pose proof Hwr as (G1 & G2 & G3 & _).
    destruct xk as [m1 m2 m3 xk pxk], xi as [m4 m5 m6 xi pxi], xp as [m7 m8 m9 xp pxp],
      dx as [m10 m11 m12 dx pdx], rk as [m13 m14 m15 rk ark prk], ri as [m16 m17 m18 ri ari pri],
      ff as [m19 m20 m21 tz tl tv pff].
    unfold fv_ok, fr_ok, ff_ok in *; cbn [fv_nz fv_nl fv_nv fv_x fr_nz fr_nl fr_nv fr_r ff_nz ff_nl ff_nv ff_tz ff_tl ff_tv] in *.
    destruct Hxk as (-> & -> & -> & Hxk), Hxi as (-> & -> & -> & Hxi), Hxp as (-> & -> & -> & Hxp),
      Hdx as (-> & -> & -> & Hdx), Hrk as (-> & -> & -> & Hrk), Hri as (-> & -> & -> & Hri),
      Hff as (-> & -> & -> & Hw).
    unfold Solve, link_all, set_alphas, fv_link, fr_link, ff_link, fr_setalpha, CopyIntoVariable, fv_set.
    run. cbn [fr_nz fr_nl fr_nv fr_alpha fr_data ff_nz ff_nl ff_nv ff_tz ff_tl ff_tv].
    pose proof (lo_ready _ _ _ _ HL (p_alpha o) l Hl) as Hr.
    set (l1 := ls_link LS (PLive d) (ls_setalpha LS (p_alpha o) l)) in *.
    destruct (margin_ok (v_z c) (v_l c) (v_v c) (v_y xk) G1 (proj2 (proj2 (proj2 Hxk)))) as [E1 K1].
    unfold FV in E1. rewrite E1. run.
    destruct (fill_ok (o_one O) dx Hdx) as [E2 K2]. unfold FV in E2. rewrite E2. run.
    unfold psolve. fold (pstart pb c). set (x0 := pstart pb c) in *.
    assert (Hx0 : vok x0) by (unfold x0, pstart, var_ok; cbn; auto).
    destruct (pnr_ok x0 rk Hx0 Hrk) as [E3 K3]. unfold FV, FR in E3. rewrite E3. run.
    change (combo_of O DI o d) with (pb_combo pb).
    fold (pones O pb nz nl nv).
    assert (Hone : vok (pones O pb nz nl nv)).
    { unfold pones, var_ok; cbn [v_z v_l v_v v_y]. autorewrite with vlen. auto. }
    unfold stale_of, ws_of; cbn [a_ri a_ff ff_tz ff_tl ff_tv].
    assert (Hst : rrok (fr_r (fr_fill (o_zero O) (mkFres nz nl nv ri ari pri : fres T D)))).
    { apply fill_rr. exact Hri. }
    unfold fr_fill in Hst |- *. unfold fr_set in Hst |- *.
    cbn [fr_r fr_nz fr_nl fr_nv fr_alpha fr_data] in Hst |- *.
    match type of Hst with rsd_ok _ _ _ ?x => set (ri0 := x) in * end.
    change (mkFfeas nz nl nv tz tl tv (PLive d)) with (FF (tz, tl, tv)).
    destruct (saturate O (rsd_norm O (pb_pnr pb x0)) (p_inner_tol_min o) (p_inner_tol_max o))
      as [it|e|u] eqn:ES.
    2: { cbn [wbind wlift]. eexists. split; [reflexivity|]. rewrite ?app_nil_r. refold.
         unfold isSt. do 11 eexists. split; [reflexivity|okk]. }
    2: { unfold saturate in ES. destruct (o_ltb _ _ _); discriminate ES. }
    refold.
    match goal with |- context [PrintIterHeader (St ?a ?b ?c' ?d' ?e ?f ?g ?h ?i ?j ?k' ?l' ?m ?n' ?q)] =>
      destruct (iter_run it a b c' d' e f g h i j k' l' m n' q) as [_ [PI _]] end.
    rewrite PI. cbn [wbind wlift wlog].
    match goal with |- context [prox_loop O DI LS Mapped el (p_sigma0 o) ?E0 ?fu it (St _ _ _ ?d' ?e ?f ?g ?h ?i ?j ?k' ?l' ?m ?n' ?q)] =>
      pose proof (prox_bad el E0 fu it 0%Z 0%Z d' e f g h i j k' l' m n' q Hwr) as PR end.
    assert (OK0 : okst x0 x0 xp (pones O pb nz nl nv) (pb_pnr pb x0) ri0 l1 (tz, tl, tv)) by okk.
    specialize (PR OK0).
    destruct (pprox O o pb el _ _ it x0 _ ri0 _ _ _ _) as [[lg' tr'] [[out xw]|e|u]].
    - exact PR.
    - destruct PR as (s' & PR & IS). exists s'. split; [exact PR|].
      rewrite <- !app_assoc in IS. cbn [app] in *. exact IS.
    - exact PR.
  Qed.

  Lemma isSt_ok s c lg tr : isSt s c lg tr ->
    ast_ok nz nl nv lsize (link_all LS PDangling (set_trace [] (set_log [] (set_caller empty_var s)))) /\
    a_opts s = o /\ a_caller s = c /\ a_log s = lg /\ a_trace s = tr.
  Proof.
    intros (n & p & xk & xi & xp & dx & rk & ri & l & w & merit & -> & Hok).
    destruct Hok as (Hxk & Hxi & Hxp & Hdx & Hrk & Hri & Hl & Hw).
    split; [|repeat split].
    unfold link_all, St, FF. destruct w as [[tz tl] tv]. unfold fv_link, fr_link, ff_link. run.
    unfold ast_ok, fv_ok, fr_ok, ff_ok. cbn [fr_nz fr_nl fr_nv ff_nz ff_nl ff_nv ff_tz ff_tl ff_tv fr_r].
    cbn. repeat (split; [now repeat split; try (apply Hxk || apply Hxi || apply Hxp || apply Hdx || apply Hrk || apply Hri || apply Hw)|]).
    apply (lo_unlink _ _ _ _ HL). apply (lo_size _ _ _ _ HL) with (al := p_alpha o). exact Hl.
  Qed.

  Definition presult (w : W T (solver_out T * var T)) (x : var T) : solve_result T :=
    let '(lg, tr, r) := w in
    match r with
    | Ok (out, xw) => mkSR (Ok out) xw lg tr
    | Throw e => mkSR (Throw e) x lg tr
    | UB u => mkSR (UB u) x lg tr
    end.

  (* The refinement theorem. *)
  Theorem call_ref k el s x :
    ast_ok nz nl nv lsize s -> a_opts s = o -> guess_ok x -> writable k x ->
    exists s', call_solve O DI LS s d k x el =
      (s', presult (psolve O o pb nz nl nv el (stale_of s) (ws_of s) x) x) /\
      ast_ok nz nl nv lsize s' /\ a_opts s' = o /\
      is_ub (snd (psolve O o pb nz nl nv el (stale_of s) (ws_of s) x)) = false /\
      (forall out xw, snd (psolve O o pb nz nl nv el (stale_of s) (ws_of s) x) = Ok (out, xw) -> vok xw).
  Proof.
    intros Hok Ho Hg Hw. unfold call_solve.
    set (s0 := set_trace [] (set_log [] (set_caller x s))).
    assert (Hok0 : ast_ok nz nl nv lsize s0) by exact Hok.
    pose proof (solve_ref k el s0 Hok0 Ho Hg Hw) as SR.
    change (stale_of s0) with (stale_of s) in SR. change (ws_of s0) with (ws_of s) in SR.
    change (a_caller s0) with x in SR. change (a_log s0) with (@nil (event T)) in SR.
    change (a_trace s0) with (@nil (ghost T)) in SR. cbn [app] in SR.
    destruct (psolve O o pb nz nl nv el (stale_of s) (ws_of s) x) as [[lg tr] [[out xw]|e|u]];
      cbn [snd is_ub].
    - destruct SR as (s1 & -> & IS & V). destruct (isSt_ok _ _ _ _ IS) as (A1 & A2 & A3 & A4 & A5).
      eexists. rewrite A3, A4, A5. split; [reflexivity|]. split; [exact A1|]. split; [exact A2|].
      split; [reflexivity|]. intros out' xw' [= <- <-]. exact V.
    - destruct SR as (s1 & -> & IS). destruct (isSt_ok _ _ _ _ IS) as (A1 & A2 & A3 & A4 & A5).
      eexists. rewrite A3, A4, A5. split; [reflexivity|]. split; [exact A1|]. split; [exact A2|].
      split; [reflexivity|]. discriminate.
    - destruct SR.
  Qed.

  (* the same with a mapped y of the wrong length *)
  Theorem call_bad el s x :
    ast_ok nz nl nv lsize s -> a_opts s = o -> unwritable x ->
    let r := snd (call_solve O DI LS s d Mapped x el) in
    let w := psolve O o pb nz nl nv el (stale_of s) (ws_of s) x in
    is_ub (snd w) = false /\ sr_x r = x /\
    sr_out r = match snd w with Ok _ => UB UBSize | Throw e => Throw e | UB u => UB u end.
  Proof.
    intros Hok Ho Hw. cbv zeta. unfold call_solve.
    set (s0 := set_trace [] (set_log [] (set_caller x s))).
    pose proof (solve_bad el s0 Hok Ho Hw) as SR.
    change (stale_of s0) with (stale_of s) in SR. change (ws_of s0) with (ws_of s) in SR.
    change (a_caller s0) with x in SR.
    destruct (psolve O o pb nz nl nv el (stale_of s) (ws_of s) x) as [[lg tr] [[out xw]|e|u]]; cbn [snd is_ub].
    - destruct SR as (s1 & -> & E). cbn [snd sr_x sr_out]. auto.
    - destruct SR as (s1 & -> & IS). destruct (isSt_ok _ _ _ _ IS) as (A1 & A2 & A3 & A4 & A5). cbn [snd sr_x sr_out]. auto.
    - destruct SR.
  Qed.
End Refine.
