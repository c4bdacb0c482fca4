(* Reading the ghost trace of a Solve call, and the master lemma: every event of every trace is
   what the code says it is, in the context of the events before it. *)
From Verif Require Export Sim.

(* ---------- reading a trace (used in the statements of properties) ---------- *)

(* what the events so far say about the state of the run *)
Record ctx (T : Type) : Type := mkCtx {
  c_tol : option T;           (* tolerance of the current / last subproblem *)
  c_center : var T;           (* its centre: the current proximal iterate x(k) *)
  c_x : var T;                (* the current point *)
  c_merits : list T;          (* merit values of the current subproblem, most recent first *)
  c_seen : option (var T);    (* the point examined by the last inner iteration *)
  c_step : option (var T);    (* the last proximal step x(k+1) - x(k) *)
  c_newton : Z;               (* linear systems solved so far *)
  c_prox : Z }.               (* proximal steps completed so far *)
Arguments c_newton {T}. Arguments c_prox {T}.
Arguments mkCtx {T}. Arguments c_tol {T}. Arguments c_center {T}. Arguments c_x {T}.
Arguments c_merits {T}. Arguments c_seen {T}. Arguments c_step {T}.

Definition start_ctx {T} (x : var T) : ctx T := mkCtx None x x [] None None 0 0.
Definition upd {T} (c : ctx T) (g : ghost T) : ctx T :=
  match g with
  | GSub _ tol _ xb => mkCtx (Some tol) xb xb [] (c_seen c) (c_step c) (c_newton c) (c_prox c)
  | GInner x _ _ =>
      mkCtx (c_tol c) (c_center c) (c_x c) (c_merits c) (Some x) (c_step c) (c_newton c) (c_prox c)
  | GLin _ _ =>
      mkCtx (c_tol c) (c_center c) (c_x c) (c_merits c) (c_seen c) (c_step c) (c_newton c + 1) (c_prox c)
  | GMerit _ _ => c
  | GStep _ _ cm _ _ _ _ x' =>
      mkCtx (c_tol c) (c_center c) x' (cm :: c_merits c) (c_seen c) (c_step c) (c_newton c) (c_prox c)
  | GProject x =>
      mkCtx (c_tol c) (c_center c) x (c_merits c) (c_seen c) (c_step c) (c_newton c) (c_prox c)
  | GProx dx =>
      mkCtx (c_tol c) (c_center c) (c_x c) (c_merits c) (c_seen c) (Some dx) (c_newton c) (c_prox c + 1)
  end.
(* the context after the events [pre] of a run that started at the point x *)
Definition after {T} (x : var T) (pre : list (ghost T)) : ctx T := fold_left upd pre (start_ctx x).

Definition is_lin {T} (g : ghost T) : bool := match g with GLin _ _ => true | _ => false end.
Definition is_mer {T} (g : ghost T) : bool := match g with GMerit _ _ => true | _ => false end.
Definition is_sub {T} (g : ghost T) : bool := match g with GSub _ _ _ _ => true | _ => false end.
Definition count {A} (f : A -> bool) (l : list A) : nat := length (filter f l).

(* ---------- proofs ---------- *)
Lemma count_app {A} (f : A -> bool) l1 l2 : count f (l1 ++ l2) = count f l1 + count f l2.
Proof. unfold count. rewrite filter_app, app_length. reflexivity. Qed.
Lemma count_cons {A} (f : A -> bool) a l : count f (a :: l) = (if f a then 1 else 0) + count f l.
Proof. unfold count. cbn. destruct (f a); reflexivity. Qed.
Lemma count_nil {A} (f : A -> bool) : count f [] = 0.
Proof. reflexivity. Qed.

Section Master.
  Context {T : Type} (O : Ops T) (o : params T) (pb : prob T).
  Context (vok : var T -> Prop) (wok : ws T -> Prop).
  Hypothesis Hax : forall a x y, vok x -> vok y -> vok (pb_axpy pb a x y).
  Hypothesis Hnw : forall x xb dx, vok x -> vok xb ->
    pb_newton pb x xb (rsd_neg O (pb_inner pb x xb)) = Ok dx -> vok dx.
  Hypothesis Hpr : forall x, vok x -> vok (proj_duals O x).
  Hypothesis Hwk : forall w x, wok w -> vok x -> wok (fst (pb_feas pb w x)).

  Notation pnr x := (rsd_norm O (pb_pnr pb x)).
  Notation inn x xb := (rsd_norm O (pb_inner pb x xb)).

  Context (itol0 : T) (ones : var T).
  Definition tol_of (c : ctx T) : T := match c_tol c with Some t => t | None => itol0 end.
  Definition step_or (c : ctx T) : var T := match c_step c with Some dx => dx | None => ones end.
  Definition buf_of (c : ctx T) : list T := firstn 5 (c_merits c ++ repeat (o_zero O) 5).

  Definition ev_ok (c : ctx T) (g : ghost T) : Prop :=
    match g with
    | GSub prev tol Ek xb =>
        prev = tol_of c /\ xb = c_x c /\ vok xb /\ Ek = pnr xb /\ o_leb O Ek (pb_combo pb) = false /\
        o_leb O (var_norm O (step_or c)) (p_stall_tol o) = false /\
        (c_prox c < p_max_prox o)%Z /\
        saturate O (o_mul O prev (p_delta o)) (p_inner_tol_min o) Ek = Ok tol
    | GInner x Ei Eo => x = c_x c /\ vok x /\ vok (c_center c) /\ Ei = inn x (c_center c) /\ Eo = pnr x
    | GLin x xb =>
        x = c_x c /\ xb = c_center c /\ (c_newton c < p_max_newton o)%Z /\ c_seen c = Some x /\
        length (c_merits c) < Z.to_nat (p_max_inner o) /\
        exists tol, c_tol c = Some tol /\ inner_stop O o (inn x xb) (pnr x) tol (pnr xb) = false
    | GMerit _ _ => True
    | GStep x dx cm m0 t j acc x' =>
        x = c_x c /\ vok x /\ vok (c_center c) /\ vok dx /\ vok x' /\
        exists ms m', step_of O o pb x (c_center c) (buf_of c) dx ms cm m0 t j acc x' m'
    | GProject x =>
        x = proj_duals O (c_x c) /\ vok x /\
        (length (c_merits c) = Z.to_nat (p_max_inner o) \/
         (c_seen c = Some (c_x c) /\
          ((p_max_newton o <= c_newton c)%Z \/
           exists tol, c_tol c = Some tol /\
             inner_stop O o (inn (c_x c) (c_center c)) (pnr (c_x c)) tol (pnr (c_center c)) = true)))
    | GProx dx => dx = pb_axpy pb (o_mone O) (c_center c) (c_x c) /\ vok dx
    end.

  Definition trace_ok (c : ctx T) (tr : list (ghost T)) : Prop :=
    forall pre g post, tr = pre ++ g :: post -> ev_ok (fold_left upd pre c) g.

  Lemma trace_nil c : trace_ok c [].
  Proof. intros [|a pre] g post E; discriminate. Qed.
  Lemma trace_cons c g tr : ev_ok c g -> trace_ok (upd c g) tr -> trace_ok c (g :: tr).
  Proof.
    intros H1 H2 [|a pre] g' post E; cbn in E; injection E as -> E.
    - exact H1.
    - cbn. apply (H2 pre g' post E).
  Qed.
  Lemma trace_app c t1 : forall t2, trace_ok c t1 -> trace_ok (fold_left upd t1 c) t2 ->
    trace_ok c (t1 ++ t2).
  Proof.
    revert c. induction t1 as [|g t1 IH]; intros c t2 H1 H2; [exact H2|].
    cbn. apply trace_cons.
    - apply (H1 [] g t1 eq_refl).
    - apply IH; [|exact H2]. intros pre g' post E. apply (H1 (g :: pre) g' post). cbn. rewrite E. reflexivity.
  Qed.

  Lemma fold_merit ms (c : ctx T) : Forall is_merit ms -> fold_left upd ms c = c.
  Proof.
    induction ms as [|g ms IH]; intro H; [reflexivity|].
    inversion H as [|? ? H1 H2]; subst. destruct g; try contradiction. cbn. apply IH; exact H2.
  Qed.
  Lemma trace_merit ms : forall c : ctx T, Forall is_merit ms -> trace_ok c ms.
  Proof.
    induction ms as [|g ms IH]; intros c H; [apply trace_nil|].
    inversion H as [|? ? H1 H2]; subst. apply trace_cons; [destruct g; try contradiction; exact I|].
    apply IH; exact H2.
  Qed.

  Lemma buf_insert (cm : T) ms l : firstn 5 (cm :: ms ++ l) = InsertMerit cm (firstn 5 (ms ++ l)).
  Proof.
    unfold InsertMerit. change (firstn 5 (cm :: ms ++ l)) with (cm :: firstn 4 (ms ++ l)).
    f_equal. rewrite firstn_firstn. reflexivity.
  Qed.

  Lemma irun_master tol Ek xbar fuel n m x Eo dx ri rk tr r :
    irun O o pb tol Ek xbar fuel n m x Eo dx ri rk tr r ->
    forall c, c_center c = xbar -> c_x c = x -> m = buf_of c -> vok x -> vok xbar ->
    Ek = pnr xbar -> c_tol c = Some tol -> c_newton c = n ->
    length (c_merits c) + fuel = Z.to_nat (p_max_inner o) ->
    (fuel = 0 -> exists xs, c_seen c = Some xs /\ vok xs /\ Eo = pnr xs /\ rk = pb_pnr pb xs) ->
    trace_ok c tr /\
    let c' := fold_left upd tr c in
    c_tol c' = c_tol c /\ c_center c' = xbar /\ c_step c' = c_step c /\ c_prox c' = c_prox c /\ vok (c_x c') /\
    match r with
    | Ok (Eo', x', dx', ri', rk', n') =>
        x' = c_x c' /\ c_newton c' = n' /\
        (length (c_merits c') = Z.to_nat (p_max_inner o) \/
         (c_seen c' = Some (c_x c') /\
          ((p_max_newton o <= n')%Z \/ inner_stop O o (inn (c_x c') xbar) (pnr (c_x c')) tol Ek = true))) /\ (exists xs, c_seen c' = Some xs /\ vok xs /\ Eo' = pnr xs /\ rk' = pb_pnr pb xs)
    | Throw e => pb_newton pb (c_x c') xbar (rsd_neg O (pb_inner pb (c_x c') xbar)) = Throw e
    | UB u => pb_newton pb (c_x c') xbar (rsd_neg O (pb_inner pb (c_x c') xbar)) = UB u
    end.
  Proof.
    induction 1 as [n m x Eo dx ri rk
                   |fuel n m x Eo0 dx ri0 rk0 Ei Eo E1 E2 HS
                   |fuel n m x Eo0 dx ri0 rk0 Ei Eo e E1 E2 HS HN HT
                   |fuel n m x Eo0 dx ri0 rk0 Ei Eo u E1 E2 HS HN HT
                   |fuel n m x Eo0 dx0 ri0 rk0 Ei Eo dx ms cm m0 t j acc x' m' ri' tr r E1 E2 HS HN ST HR IH];
      intros c Hc Hx Hm Vx Vb HE Hto Hn Hl Hf; cbv zeta.
    - split; [apply trace_nil|]. cbn. rewrite Hc, Hx. destruct (Hf eq_refl) as (xs & Hs).
      repeat (split; [auto; fail|]). split; [left; lia|]. eauto.
    - split; [apply trace_cons; [cbn; rewrite Hc, Hx; auto 10|apply trace_nil]|].
      cbn. rewrite Hc, Hx. repeat (split; [auto; fail|]). split; [|subst; eauto].
      right. split; [reflexivity|]. rewrite <- E1, <- E2. destruct HS as [HS|[_ HS]]; auto.
    - split; [apply trace_cons; [cbn; rewrite Hc, Hx; auto 10|apply trace_nil]|].
      cbn. rewrite Hc, Hx. auto 10.
    - split; [apply trace_cons; [cbn; rewrite Hc, Hx; auto 10|apply trace_nil]|].
      cbn. rewrite Hc, Hx. auto 10.
    - assert (ST0 := ST).
      destruct ST as (S1 & S2 & S3 & S4 & S5 & S6 & S7 & S8 & S9 & S10).
      assert (Vd : vok dx) by (apply (Hnw x xbar); auto).
      assert (Vx' : vok x') by (rewrite S9; apply Hax; auto).
      set (c1 := mkCtx (c_tol c) (c_center c) (c_x c) (c_merits c) (Some x) (c_step c) (c_newton c + 1) (c_prox c)).
      set (c2 := mkCtx (c_tol c1) (c_center c1) x' (cm :: c_merits c1) (c_seen c1) (c_step c1) (c_newton c1) (c_prox c1)).
      assert (F : fold_left upd (GInner x Ei Eo :: GLin x xbar :: ms ++ GStep x dx cm m0 t j acc x' :: tr) c
                  = fold_left upd tr c2).
      { cbn [fold_left upd]. rewrite fold_left_app, (fold_merit ms) by exact S5. reflexivity. }
      destruct (IH c2) as (I1 & I2); auto.
      { rewrite S3, Hm. unfold buf_of, c2, c1. cbn [c_merits app]. symmetry. apply buf_insert. }
      { cbn. lia. }
      { cbn. lia. }
      { intros _. exists x. cbn. subst Eo. auto. }
      cbv zeta in I2. rewrite F.
      split.
      + apply trace_cons; [cbn; rewrite Hc, Hx; auto 10|].
        apply trace_cons.
        { cbn. rewrite Hc, Hx, Hn. repeat (split; [reflexivity || lia|]).
          exists tol. split; [exact Hto|]. rewrite <- E1, <- E2, <- HE. exact HS. }
        apply trace_app; [apply trace_merit; exact S5|]. rewrite fold_merit by exact S5.
        apply trace_cons; [|exact I1].
        cbn. rewrite Hc, Hx. repeat (split; [assumption || reflexivity|]).
        exists ms, m'. rewrite Hm in ST0. exact ST0.
      + exact I2.
  Qed.

  (* ---- the proximal loop ---- *)
  Definition infeas (e : exit_flag) : bool :=
    match e with PRIMAL_INFEASIBLE | DUAL_INFEASIBLE | PRIMAL_DUAL_INFEASIBLE => true | _ => false end.

  Definition exit_ok (pmax : Z) (c : ctx T) (r : res (solver_out T * var T)) : Prop :=
    match r with
    | Ok (out, xw) =>
        vok xw /\ so_newton out = c_newton c /\
        so_prox out = (if infeas (so_eflag out) then c_prox c - 1 else c_prox c)%Z /\
        ((so_eflag out = SUCCESS /\ xw = c_x c /\ so_residual out = pnr xw /\
          (o_leb O (so_residual out) (pb_combo pb) = true \/
           o_leb O (var_norm O (step_or c)) (p_stall_tol o) = true)) \/
         (so_eflag out = MAXITERATIONS /\ (p_max_newton o <= so_newton out)%Z /\ (so_prox out < pmax)%Z /\
          so_residual out = pnr xw /\
          vok (c_center c) /\ vok (c_x c) /\ exists xs, c_seen c = Some xs /\ vok xs /\
            xw = (if o_ltb O (pnr xs) (pnr (c_center c)) then c_x c else c_center c)) \/
         (so_eflag out = MAXITERATIONS /\ so_prox out = pmax /\
          xw = c_x c /\ exists xs, c_seen c = Some xs /\ vok xs /\ so_residual out = pnr xs) \/
         (infeas (so_eflag out) = true /\ p_check_feas o = true /\ c_step c = Some xw /\
          xw = pb_axpy pb (o_mone O) (c_center c) (c_x c) /\ vok (c_center c) /\ vok (c_x c) /\
          (exists w, wok w /\ flag_of (snd (pb_feas pb w xw)) = so_eflag out) /\
          exists xs, c_seen c = Some xs /\ vok xs /\ so_residual out = pnr xs))
    | Throw e =>
        vok (c_x c) /\
        ((e = ESaturate /\ o_leb O (pnr (c_x c)) (pb_combo pb) = false /\
          o_leb O (var_norm O (step_or c)) (p_stall_tol o) = false /\
          o_ltb O (pnr (c_x c)) (p_inner_tol_min o) = true) \/
         (vok (c_center c) /\
          pb_newton pb (c_x c) (c_center c) (rsd_neg O (pb_inner pb (c_x c) (c_center c))) = Throw e))
    | UB u =>
        vok (c_x c) /\ vok (c_center c) /\
        pb_newton pb (c_x c) (c_center c) (rsd_neg O (pb_inner pb (c_x c) (c_center c))) = UB u
    end.

  Context (el E0 : T).
  Hypothesis Hin : (1 <= p_max_inner o)%Z.

  Lemma prun_master fuel itol xk dx ri rk w n p tr r :
    prun O o pb el E0 fuel itol xk dx ri rk w n p tr r ->
    forall c, c_x c = xk -> tol_of c = itol -> step_or c = dx -> vok xk -> wok w ->
    c_newton c = n -> c_prox c = p -> (p + Z.of_nat fuel = p_max_prox o)%Z ->
    (fuel = 0 -> exists xs, c_seen c = Some xs /\ vok xs /\ rk = pb_pnr pb xs) ->
    trace_ok c tr /\ exit_ok (p + Z.of_nat fuel) (fold_left upd tr c) r.
  Proof.
    assert (Hin' : Z.to_nat (p_max_inner o) <> 0) by lia.
    induction 1 as
      [itol xk dx ri rk w n p
      |fuel itol xk dx ri rk w n p HS
      |fuel itol xk dx ri rk w n p e Ek EE H1 H2 H3
      |fuel itol xk dx ri rk w n p Ek it tr e EE H1 H2 H3 HI
      |fuel itol xk dx ri rk w n p Ek it tr u EE H1 H2 H3 HI
      |fuel itol xk dx ri rk w n p Ek it tr Eo xi dx1 ri1 rk1 n1 EE H1 H2 H3 HI HN
      |fuel itol xk dx ri rk w n p Ek it tr Eo xi dx1 ri1 rk1 n1 dx2 w1 fs EE H1 H2 H3 HI HN HD HC HF HX
      |fuel itol xk dx ri rk w n p Ek it tr Eo xi dx1 ri1 rk1 n1 dx2 w1 tr2 r EE H1 H2 H3 HI HN HD HF HR IH];
      intros c Hx Ht Hs Vx Hw Hn Hp Hpf Hf.
    - split; [apply trace_nil|]. cbn. rewrite Hx, Hn, Hp. repeat (split; [auto; fail|]). right; right; left.
      destruct (Hf eq_refl) as (xs & A & B & C). repeat (split; [reflexivity || lia|]).
      exists xs. subst rk. auto.
    - split; [apply trace_nil|]. cbn. rewrite Hx, Hs, Hn, Hp. repeat (split; [auto; fail|]). left.
      repeat (split; [reflexivity|]). exact HS.
    - split; [apply trace_nil|]. cbn. rewrite Hx, Hs. split; [exact Vx|]. left.
      unfold saturate in H3. destruct (o_ltb O Ek (p_inner_tol_min o)) eqn:EL; [|discriminate].
      injection H3 as <-. subst Ek. auto.
    - set (c1 := mkCtx (Some it) xk xk [] (c_seen c) (c_step c) (c_newton c) (c_prox c)).
      destruct (irun_master _ _ _ _ _ _ _ _ _ _ _ _ _ HI c1) as (I1 & I2); auto; try lia.
      cbv zeta in I2. destruct I2 as (_ & I3 & _ & IP & I5 & I6).
      split.
      + apply trace_cons; [cbn; rewrite Hs; subst; auto 15 with zarith|exact I1].
      + change (fold_left upd (GSub itol it Ek xk :: tr) c) with (fold_left upd tr c1).
        cbn. split; [exact I5|]. right. rewrite I3. auto.
    - set (c1 := mkCtx (Some it) xk xk [] (c_seen c) (c_step c) (c_newton c) (c_prox c)).
      destruct (irun_master _ _ _ _ _ _ _ _ _ _ _ _ _ HI c1) as (I1 & I2); auto; try lia.
      cbv zeta in I2. destruct I2 as (_ & I3 & _ & IP & I5 & I6).
      split.
      + apply trace_cons; [cbn; rewrite Hs; subst; auto 15 with zarith|exact I1].
      + change (fold_left upd (GSub itol it Ek xk :: tr) c) with (fold_left upd tr c1).
        cbn. split; [exact I5|]. rewrite I3. auto.
    - set (c1 := mkCtx (Some it) xk xk [] (c_seen c) (c_step c) (c_newton c) (c_prox c)).
      destruct (irun_master _ _ _ _ _ _ _ _ _ _ _ _ _ HI c1) as (I1 & I2); auto; try lia.
      cbv zeta in I2. destruct I2 as (I2 & I3 & I4 & IP & I5 & I6 & IN & IS & xs & I7 & I8 & I9 & I10).
      cbn [c_tol c_prox] in I2, IP.
      assert (PJ : ev_ok (fold_left upd tr c1) (GProject (proj_duals O xi))).
      { cbn -[fold_left]. rewrite I3. split; [rewrite I6; reflexivity|].
        split; [rewrite I6; apply Hpr; exact I5|].
        destruct IS as [IS|[IS1 IS2]]; [left; exact IS|right; split; [exact IS1|]].
        rewrite IN. destruct IS2 as [IS2|IS2]; [left; exact IS2|right].
        exists it. rewrite I2. split; [reflexivity|]. rewrite <- EE. exact IS2. }
      split.
      + apply trace_cons; [cbn; rewrite Hs; subst; auto 15 with zarith|].
        apply trace_app; [exact I1|]. apply trace_cons; [exact PJ|apply trace_nil].
      + change (fold_left upd (GSub itol it Ek xk :: tr ++ ?l) c) with (fold_left upd (tr ++ l) c1).
        rewrite fold_left_app. cbn. rewrite IN, IP. cbn [c1 c_prox]. rewrite ?Hp.
        split; [subst xr; destruct (o_ltb O Eo Ek); [apply Hpr; rewrite I6; exact I5|exact Vx]|]. split; [reflexivity|]. split; [reflexivity|].
        right; left. repeat (split; [reflexivity || lia|]). split; [rewrite I3; exact Vx|].
        split; [rewrite I6; apply Hpr; exact I5|]. exists xs. split; [exact I7|]. split; [exact I8|].
        rewrite I3. subst xr Eo Ek. reflexivity.
    - set (c1 := mkCtx (Some it) xk xk [] (c_seen c) (c_step c) (c_newton c) (c_prox c)).
      destruct (irun_master _ _ _ _ _ _ _ _ _ _ _ _ _ HI c1) as (I1 & I2); auto; try lia.
      cbv zeta in I2. destruct I2 as (I2 & I3 & I4 & IP & I5 & I6 & IN & IS & xs & I7 & I8 & I9 & I10).
      cbn [c_tol c_prox] in I2, IP.
      assert (PJ : ev_ok (fold_left upd tr c1) (GProject (proj_duals O xi))).
      { cbn -[fold_left]. rewrite I3. split; [rewrite I6; reflexivity|].
        split; [rewrite I6; apply Hpr; exact I5|].
        destruct IS as [IS|[IS1 IS2]]; [left; exact IS|right; split; [exact IS1|]].
        rewrite IN. destruct IS2 as [IS2|IS2]; [left; exact IS2|right].
        exists it. rewrite I2. split; [reflexivity|]. rewrite <- EE. exact IS2. }
      assert (Vp : vok (proj_duals O xi)) by (rewrite I6; apply Hpr; exact I5).
      assert (Vd : vok dx2) by (subst dx2; apply Hax; assumption).
      split.
      + apply trace_cons; [cbn; rewrite Hs; subst; auto 15 with zarith|].
        apply trace_app; [exact I1|]. apply trace_cons; [exact PJ|].
        apply trace_cons; [|apply trace_nil]. change (upd c (GSub itol it Ek xk)) with c1. cbn -[fold_left].
        rewrite I3. auto.
      + change (fold_left upd (GSub itol it Ek xk :: tr ++ ?l) c) with (fold_left upd (tr ++ l) c1).
        rewrite fold_left_app. cbn. rewrite IN, IP. cbn [c1 c_prox]. rewrite ?Hp.
        assert (HF1 : infeas (flag_of fs) = true) by (destruct fs; try reflexivity; destruct HX; reflexivity).
        rewrite HF1.
        split; [exact Vd|]. split; [reflexivity|]. split; [lia|]. right; right; right.
        split; [reflexivity|]. split; [exact HC|].
        split; [reflexivity|]. split; [rewrite I3; exact HD|]. split; [rewrite I3; exact Vx|].
        split; [exact Vp|]. split; [exists w; rewrite HF; auto|].
        exists xs. rewrite I10. auto.
    - set (c1 := mkCtx (Some it) xk xk [] (c_seen c) (c_step c) (c_newton c) (c_prox c)).
      destruct (irun_master _ _ _ _ _ _ _ _ _ _ _ _ _ HI c1) as (I1 & I2); auto; try lia.
      cbv zeta in I2. destruct I2 as (I2 & I3 & I4 & IP & I5 & I6 & IN & IS & xs & I7 & I8 & I9 & I10).
      cbn [c_tol c_prox] in I2, IP.
      assert (PJ : ev_ok (fold_left upd tr c1) (GProject (proj_duals O xi))).
      { cbn -[fold_left]. rewrite I3. split; [rewrite I6; reflexivity|].
        split; [rewrite I6; apply Hpr; exact I5|].
        destruct IS as [IS|[IS1 IS2]]; [left; exact IS|right; split; [exact IS1|]].
        rewrite IN. destruct IS2 as [IS2|IS2]; [left; exact IS2|right].
        exists it. rewrite I2. split; [reflexivity|]. rewrite <- EE. exact IS2. }
      assert (Vp : vok (proj_duals O xi)) by (rewrite I6; apply Hpr; exact I5).
      assert (Vd : vok dx2) by (subst dx2; apply Hax; assumption).
      assert (Hw1 : wok w1).
      { destruct HF as [[_ HF]|[_ ->]]; [|exact Hw]. pose proof (Hwk w dx2 Hw Vd) as K.
        rewrite HF in K. exact K. }
      set (c2 := fold_left upd [GProject (proj_duals O xi); GProx dx2] (fold_left upd tr c1)).
      destruct (IH c2) as (J1 & J2); auto.
      { unfold c2, tol_of. cbn. rewrite I2. reflexivity. }
      { unfold c2. cbn. rewrite IP, <- Hp. reflexivity. }
      { lia. }
      { intros _. exists xs. unfold c2. cbn. auto. }
      split.
      + apply trace_cons; [cbn; rewrite Hs; subst; auto 15 with zarith|].
        apply trace_app; [exact I1|]. cbn [app]. 
        apply trace_cons; [exact PJ|].
        apply trace_cons; [change (upd c (GSub itol it Ek xk)) with c1; cbn -[fold_left]; rewrite I3; auto|]. exact J1.
      + change (fold_left upd (GSub itol it Ek xk :: tr ++ ?l) c) with (fold_left upd (tr ++ l) c1).
        rewrite !fold_left_app. fold c2.
        replace (p + Z.of_nat (S fuel))%Z with (p + 1 + Z.of_nat fuel)%Z by lia. exact J2.
  Qed.

  (* any property that projecting the duals establishes *)
  Lemma prun_projected (P : var T -> Prop) fuel itol xk dx ri rk w n p tr r :
    (forall y, P (proj_duals O y)) ->
    prun O o pb el E0 fuel itol xk dx ri rk w n p tr r ->
    forall out xw, r = Ok (out, xw) -> infeas (so_eflag out) = false ->
    P xk \/ (p < so_prox out)%Z -> P xw.
  Proof.
    intro HP. induction 1 as
      [itol xk dx ri rk w n p
      |fuel itol xk dx ri rk w n p HS
      |fuel itol xk dx ri rk w n p e Ek EE H1 H2 H3
      |fuel itol xk dx ri rk w n p Ek it tr e EE H1 H2 H3 HI
      |fuel itol xk dx ri rk w n p Ek it tr u EE H1 H2 H3 HI
      |fuel itol xk dx ri rk w n p Ek it tr Eo xi dx1 ri1 rk1 n1 EE H1 H2 H3 HI HN
      |fuel itol xk dx ri rk w n p Ek it tr Eo xi dx1 ri1 rk1 n1 dx2 w1 fs EE H1 H2 H3 HI HN HD HC HF HX
      |fuel itol xk dx ri rk w n p Ek it tr Eo xi dx1 ri1 rk1 n1 dx2 w1 tr2 r EE H1 H2 H3 HI HN HD HF HR IH];
      intros out xw R HF' HO; try discriminate.
    - injection R as <- <-. cbn in HO. destruct HO as [HO|HO]; [exact HO|lia].
    - injection R as <- <-. cbn in HO. destruct HO as [HO|HO]; [exact HO|lia].
    - injection R as <- <-. cbn in HO. subst xr. destruct (o_ltb O Eo Ek); [apply HP|].
      destruct HO as [HO|HO]; [exact HO|lia].
    - injection R as <- <-. cbn in HF'. destruct fs; try discriminate. destruct HX; reflexivity.
    - apply (IH out xw R HF'). left. apply HP.
  Qed.

  (* ---- counting ---- *)
  Lemma count_merits ms : Forall (@is_merit T) ms ->
    count is_lin ms = 0 /\ count is_mer ms = length ms /\ count is_sub ms = 0.
  Proof.
    induction 1 as [|g ms Hg Hms IH]; [auto|]. destruct g; try contradiction.
    rewrite !count_cons. cbn. destruct IH as (-> & -> & ->). auto.
  Qed.

  Lemma irun_count tol Ek xbar fuel n m x Eo dx ri rk tr r :
    irun O o pb tol Ek xbar fuel n m x Eo dx ri rk tr r -> (n <= p_max_newton o)%Z ->
    (Z.of_nat (count is_lin tr) <= p_max_newton o - n)%Z /\ count is_lin tr <= fuel /\
    count is_mer tr <= count is_lin tr * Z.to_nat (p_max_ls o) /\ count is_sub tr = 0 /\
    match r with Ok (_, _, _, _, _, n') => (n' = n + Z.of_nat (count is_lin tr))%Z | _ => True end.
  Proof.
    induction 1 as [n m x Eo dx ri rk
                   |fuel n m x Eo0 dx ri0 rk0 Ei Eo E1 E2 HS
                   |fuel n m x Eo0 dx ri0 rk0 Ei Eo e E1 E2 HS HN HT
                   |fuel n m x Eo0 dx ri0 rk0 Ei Eo u E1 E2 HS HN HT
                   |fuel n m x Eo0 dx0 ri0 rk0 Ei Eo dx ms cm m0 t j acc x' m' ri' tr r E1 E2 HS HN ST HR IH];
      intro Hn; cbn -[Z.add Z.of_nat count Z.to_nat]; rewrite ?count_cons, ?count_nil; cbn [is_lin is_mer is_sub]; try (repeat split; lia).
    destruct ST as (S1 & S2 & S3 & S4 & S5 & S6 & S7 & _).
    destruct (count_merits _ S5) as (C1 & C2 & C3).
    destruct IH as (I1 & I2 & I3 & I4 & I5); [lia|].
    rewrite ?count_cons, ?count_app, ?count_cons. cbn [is_lin is_mer is_sub].
    rewrite C1, C2, C3, I4.
    split; [lia|]. split; [lia|]. split; [nia|]. split; [lia|].
    destruct r as [[[[[[? ?] ?] ?] ?] n']|?|?]; auto. lia.
  Qed.

  Lemma prun_count fuel itol xk dx ri rk w n p tr r :
    prun O o pb el E0 fuel itol xk dx ri rk w n p tr r -> (n <= p_max_newton o)%Z ->
    (Z.of_nat (count is_lin tr) <= p_max_newton o - n)%Z /\
    count is_mer tr <= count is_lin tr * Z.to_nat (p_max_ls o) /\
    count is_sub tr <= fuel /\
    match r with
    | Ok (out, _) =>
        so_newton out = (n + Z.of_nat (count is_lin tr))%Z /\
        (p <= so_prox out <= p + Z.of_nat fuel)%Z /\
        (Z.of_nat (count is_sub tr) = so_prox out - p \/
         Z.of_nat (count is_sub tr) = so_prox out - p + 1)%Z /\
        so_initial out = E0 /\ so_time out = el
    | _ => True end.
  Proof.
    induction 1 as
      [itol xk dx ri rk w n p
      |fuel itol xk dx ri rk w n p HS
      |fuel itol xk dx ri rk w n p e Ek EE H1 H2 H3
      |fuel itol xk dx ri rk w n p Ek it tr e EE H1 H2 H3 HI
      |fuel itol xk dx ri rk w n p Ek it tr u EE H1 H2 H3 HI
      |fuel itol xk dx ri rk w n p Ek it tr Eo xi dx1 ri1 rk1 n1 EE H1 H2 H3 HI HN
      |fuel itol xk dx ri rk w n p Ek it tr Eo xi dx1 ri1 rk1 n1 dx2 w1 fs EE H1 H2 H3 HI HN HD HC HF HX
      |fuel itol xk dx ri rk w n p Ek it tr Eo xi dx1 ri1 rk1 n1 dx2 w1 tr2 r EE H1 H2 H3 HI HN HD HF HR IH];
      intro Hn; cbn -[Z.add Z.of_nat count Z.to_nat]; rewrite ?count_cons, ?count_nil; cbn [is_lin is_mer is_sub]; try (repeat split; lia).
    all: destruct (irun_count _ _ _ _ _ _ _ _ _ _ _ _ _ HI Hn) as (C1 & C2 & C3 & C4 & C5).
    all: rewrite ?count_app, ?count_cons, ?count_app, ?count_cons, ?count_nil; cbn [is_lin is_mer is_sub app].
    - repeat split; lia.
    - repeat split; lia.
    - repeat split; try lia.
    - repeat split; try lia.
    - destruct IH as (I1 & I2 & I3 & I4); [lia|].
      rewrite ?count_cons; cbn [is_lin is_mer is_sub].
      split; [lia|]. split; [nia|]. split; [lia|]. destruct r as [[out xw]|?|?]; auto.
      destruct I4 as (I4 & I5 & I6 & I7). repeat split; try lia. all: apply I7.
  Qed.
End Master.
