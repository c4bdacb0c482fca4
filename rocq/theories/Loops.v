(* The runs of [psolve] as inductive relations (proof device; nothing here is trusted). *)
From Verif Require Export Api.

Section Loops.
  Context {T : Type} (O : Ops T) (o : params T) (pb : prob T).

  Fixpoint beta_pow (j : nat) (t : T) : T :=
    match j with 0%nat => t | S j' => beta_pow j' (o_mul O t (p_beta o)) end.

  Definition is_merit (g : ghost T) : Prop := match g with GMerit _ _ => True | _ => False end.

  Definition armijo (m0 cm t mp : T) : bool :=
    o_leb O mp (o_sub O m0 (o_mul O (o_mul O (o_mul O (o_two O) t) (p_eta o)) cm)).

  Lemma pls_facts fuel : forall j t m0 cm x xbar dx ri,
    exists tr t' j' acc ri', pls O o pb fuel j t m0 cm x xbar dx ri = ([], tr, Ok (t', j', acc, ri')) /\
      Forall is_merit tr /\ length tr <= fuel /\ j <= j' <= j + fuel /\
      t' = beta_pow (j' - j) t /\
      (if acc then j' < j + fuel /\ ri' = pb_inner pb (pb_axpy pb t' dx x) xbar /\
                   armijo m0 cm t' (rsd_merit O ri') = true
       else j' = j + fuel) /\
      (forall i, i < j' - j ->
         armijo m0 cm (beta_pow i t)
           (rsd_merit O (pb_inner pb (pb_axpy pb (beta_pow i t) dx x) xbar)) = false).
  Proof.
    induction fuel as [|fuel IH]; intros j t m0 cm x xbar dx ri; cbn [pls].
    - exists [], t, j, false, ri. replace (j - j) with 0 by lia. cbn.
      repeat split; auto; try lia; intros i Hi; lia.
    - set (xp := pb_axpy pb t dx x). set (ri1 := pb_inner pb xp xbar).
      destruct (o_leb O (rsd_merit O ri1) _) eqn:E.
      + exists [GMerit xp (rsd_merit O ri1)], t, j, true, ri1.
        cbn [wbind wghost wret app]. replace (j - j) with 0 by lia. cbn [beta_pow].
        split; [reflexivity|]. split; [repeat constructor|]. cbn [length].
        split; [lia|]. split; [lia|]. split; [reflexivity|].
        split; [cbn; repeat split; auto; lia|]. intros i Hi; lia.
      + destruct (IH (S j) (o_mul O t (p_beta o)) m0 cm x xbar dx ri1) as
          (tr & t' & j' & acc & ri' & E1 & H1 & H2 & H3 & H4 & H5 & H6).
        exists (GMerit xp (rsd_merit O ri1) :: tr), t', j', acc, ri'.
        cbn [wbind wghost wret app]. rewrite E1. split; [reflexivity|].
        split; [constructor; [exact I|exact H1]|]. cbn [length].
        split; [lia|]. split; [lia|].
        split; [replace (j' - j) with (S (j' - S j)) by lia; exact H4|].
        split.
        * destruct acc; [|lia]. destruct H5 as (H5 & H7). split; [lia|exact H7].
        * intros [|i] Hi; [exact E|]. cbn [beta_pow]. apply H6. lia.
  Qed.

  (* one damped Newton step from x *)
  Definition step_of (x xbar : var T) (merit : list T) (dx : var T) (ms : list (ghost T))
             (cm m0 t : T) (j : nat) (acc : bool) (x' : var T) (merit' : list T) : Prop :=
    pb_newton pb x xbar (rsd_neg O (pb_inner pb x xbar)) = Ok dx /\
    cm = rsd_merit O (pb_inner pb x xbar) /\
    merit' = InsertMerit cm merit /\
    m0 = (if p_nonmonotone o then MaxMerit O merit' else cm) /\
    Forall is_merit ms /\ length ms <= Z.to_nat (p_max_ls o) /\
    j <= Z.to_nat (p_max_ls o) /\ t = beta_pow j (o_one O) /\
    x' = pb_axpy pb t dx x /\
    (if acc then j < Z.to_nat (p_max_ls o) /\
                 armijo m0 cm t (rsd_merit O (pb_inner pb x' xbar)) = true
     else j = Z.to_nat (p_max_ls o)) /\
    (forall i, i < j -> armijo m0 cm (beta_pow i (o_one O))
       (rsd_merit O (pb_inner pb (pb_axpy pb (beta_pow i (o_one O)) dx x) xbar)) = false).

  Lemma pstep_facts x xbar merit :
    match pstep O o pb x xbar (pb_inner pb x xbar) merit with
    | (lg, tr, Ok (t, x', dx, ri', merit')) =>
        lg = [] /\ exists ms cm m0 j acc, tr = GLin x xbar :: ms ++ [GStep x dx cm m0 t j acc x'] /\
        step_of x xbar merit dx ms cm m0 t j acc x' merit'
    | (lg, tr, Throw e) => lg = [] /\ tr = [] /\
        pb_newton pb x xbar (rsd_neg O (pb_inner pb x xbar)) = Throw e
    | (lg, tr, UB u) => lg = [] /\ tr = [] /\
        pb_newton pb x xbar (rsd_neg O (pb_inner pb x xbar)) = UB u
    end.
  Proof.
    unfold pstep.
    destruct (pb_newton pb x xbar _) as [dx|e|u] eqn:EN; cbn [wbind wlift wghost wret]; auto.
    set (cm := rsd_merit O (pb_inner pb x xbar)).
    set (mb := InsertMerit cm merit). set (m0 := if p_nonmonotone o then MaxMerit O mb else cm).
    destruct (pls_facts (Z.to_nat (p_max_ls o)) 0 (o_one O) m0 cm x xbar dx
                (rsd_neg O (pb_inner pb x xbar))) as (tr & t' & j' & acc & ri' & E1 & H1 & H2 & H3 & H4 & H5 & H6).
    rewrite E1. cbn [wbind wlift wghost wret app]. split; [reflexivity|].
    exists tr, cm, m0, j', acc. split; [reflexivity|].
    unfold step_of. rewrite Nat.sub_0_r in H4, H6.
    split; [exact EN|]. split; [reflexivity|]. split; [reflexivity|]. split; [reflexivity|].
    split; [exact H1|]. split; [exact H2|]. split; [lia|]. split; [exact H4|]. split; [reflexivity|].
    split; [|exact H6].
    destruct acc; [|lia]. destruct H5 as (A & B & C). split; [lia|]. rewrite <- B. exact C.
  Qed.

  Notation inner_out := (T * var T * var T * rsd T * rsd T * Z)%type.

  Definition inner_stop (Ei Eo tol Ek : T) : bool :=
    (o_leb O Ei tol && o_ltb O Eo Ek) || o_leb O Ei (p_inner_tol_min o).

  Inductive irun (tol Ek : T) (xbar : var T)
    : nat -> Z -> list T -> var T -> T -> var T -> rsd T -> rsd T -> list (ghost T) -> res inner_out -> Prop :=
  | ir_fuel n m x Eo dx ri rk : irun tol Ek xbar 0 n m x Eo dx ri rk [] (Ok (Eo, x, dx, ri, rk, n))
  | ir_stop fuel n m x Eo0 dx ri0 rk0 Ei Eo :
      Ei = rsd_norm O (pb_inner pb x xbar) -> Eo = rsd_norm O (pb_pnr pb x) ->
      inner_stop Ei Eo tol Ek = true \/ (inner_stop Ei Eo tol Ek = false /\ (p_max_newton o <= n)%Z) ->
      irun tol Ek xbar (S fuel) n m x Eo0 dx ri0 rk0 [GInner x Ei Eo]
        (Ok (Eo, x, dx, pb_inner pb x xbar, pb_pnr pb x, n))
  | ir_throw fuel n m x Eo0 dx ri0 rk0 Ei Eo e :
      Ei = rsd_norm O (pb_inner pb x xbar) -> Eo = rsd_norm O (pb_pnr pb x) ->
      inner_stop Ei Eo tol Ek = false -> (n < p_max_newton o)%Z ->
      pb_newton pb x xbar (rsd_neg O (pb_inner pb x xbar)) = Throw e ->
      irun tol Ek xbar (S fuel) n m x Eo0 dx ri0 rk0 [GInner x Ei Eo] (Throw e)
  | ir_ub fuel n m x Eo0 dx ri0 rk0 Ei Eo u :
      Ei = rsd_norm O (pb_inner pb x xbar) -> Eo = rsd_norm O (pb_pnr pb x) ->
      inner_stop Ei Eo tol Ek = false -> (n < p_max_newton o)%Z ->
      pb_newton pb x xbar (rsd_neg O (pb_inner pb x xbar)) = UB u ->
      irun tol Ek xbar (S fuel) n m x Eo0 dx ri0 rk0 [GInner x Ei Eo] (UB u)
  | ir_step fuel n m x Eo0 dx0 ri0 rk0 Ei Eo dx ms cm m0 t j acc x' m' ri' tr r :
      Ei = rsd_norm O (pb_inner pb x xbar) -> Eo = rsd_norm O (pb_pnr pb x) ->
      inner_stop Ei Eo tol Ek = false -> (n < p_max_newton o)%Z ->
      step_of x xbar m dx ms cm m0 t j acc x' m' ->
      irun tol Ek xbar fuel (n + 1) m' x' Eo dx ri' (pb_pnr pb x) tr r ->
      irun tol Ek xbar (S fuel) n m x Eo0 dx0 ri0 rk0
        (GInner x Ei Eo :: GLin x xbar :: ms ++ GStep x dx cm m0 t j acc x' :: tr) r.

  Lemma pinner_irun tol Ek xbar fuel : forall i t Eo x dx ri rk n m,
    irun tol Ek xbar fuel n m x Eo dx ri rk
      (snd (fst (pinner O o pb fuel i t Eo tol Ek x xbar dx ri rk n m)))
      (snd (pinner O o pb fuel i t Eo tol Ek x xbar dx ri rk n m)).
  Proof.
    induction fuel as [|fuel IH]; intros i t Eo x dx ri rk n m; cbn [pinner].
    - constructor.
    - set (Ei := rsd_norm O (pb_inner pb x xbar)). set (E1 := rsd_norm O (pb_pnr pb x)).
      fold (inner_stop Ei E1 tol Ek).
      destruct (inner_stop Ei E1 tol Ek) eqn:ES.
      + cbn [wbind wghost wlog wret fst snd app]. apply ir_stop; auto.
      + cbn [wbind wghost wlog wret fst snd app].
        destruct (Z.leb_spec (p_max_newton o) n).
        * cbn [wbind wghost wlog wret fst snd app]. apply ir_stop; auto.
        * pose proof (pstep_facts x xbar m) as PS.
          destruct (pstep O o pb x xbar (pb_inner pb x xbar) m) as [[lg tr] [[[[[t' x'] dx'] ri'] m']|e|u]].
          -- destruct PS as (-> & ms & cm & m0 & j & acc & -> & PS).
             cbn [wbind].
             specialize (IH (i + 1)%Z t' E1 x' dx' ri' (pb_pnr pb x) (n + 1)%Z m').
             destruct (pinner O o pb fuel (i + 1)%Z t' E1 tol Ek x' xbar dx' ri' (pb_pnr pb x) (n + 1)%Z m')
               as [[lg2 tr2] r2]. cbn [fst snd app] in *.
             rewrite <- app_assoc. cbn [app]. eapply ir_step; eauto.
          -- destruct PS as (-> & -> & PS). cbn. apply ir_throw; auto.
          -- destruct PS as (-> & -> & PS). cbn. apply ir_ub; auto.
  Qed.

  Context (el E0 : T).
  Notation rres := (res (solver_out T * var T)).

  Definition done (e : exit_flag) (rk : rsd T) (n p : Z) : solver_out T :=
    mkOut e (rsd_norm O rk) n p el E0.

  Inductive prun
    : nat -> T -> var T -> var T -> rsd T -> rsd T -> ws T -> Z -> Z -> list (ghost T) -> rres -> Prop :=
  | pr_limit itol xk dx ri rk w n p :
      prun 0 itol xk dx ri rk w n p [] (Ok (done MAXITERATIONS rk n p, xk))
  | pr_success fuel itol xk dx ri rk w n p :
      o_leb O (rsd_norm O (pb_pnr pb xk)) (pb_combo pb) = true \/
      o_leb O (var_norm O dx) (p_stall_tol o) = true ->
      prun (S fuel) itol xk dx ri rk w n p [] (Ok (done SUCCESS (pb_pnr pb xk) n p, xk))
  | pr_sat fuel itol xk dx ri rk w n p e Ek :
      Ek = rsd_norm O (pb_pnr pb xk) ->
      o_leb O Ek (pb_combo pb) = false -> o_leb O (var_norm O dx) (p_stall_tol o) = false ->
      saturate O (o_mul O itol (p_delta o)) (p_inner_tol_min o) Ek = Throw e ->
      prun (S fuel) itol xk dx ri rk w n p [] (Throw e)
  | pr_throw fuel itol xk dx ri rk w n p Ek it tr e :
      Ek = rsd_norm O (pb_pnr pb xk) ->
      o_leb O Ek (pb_combo pb) = false -> o_leb O (var_norm O dx) (p_stall_tol o) = false ->
      saturate O (o_mul O itol (p_delta o)) (p_inner_tol_min o) Ek = Ok it ->
      irun it Ek xk (Z.to_nat (p_max_inner o)) n (repeat (o_zero O) 5) xk (o_zero O) dx ri (pb_pnr pb xk)
           tr (Throw e) ->
      prun (S fuel) itol xk dx ri rk w n p (GSub itol it Ek xk :: tr) (Throw e)
  | pr_ub fuel itol xk dx ri rk w n p Ek it tr u :
      Ek = rsd_norm O (pb_pnr pb xk) ->
      o_leb O Ek (pb_combo pb) = false -> o_leb O (var_norm O dx) (p_stall_tol o) = false ->
      saturate O (o_mul O itol (p_delta o)) (p_inner_tol_min o) Ek = Ok it ->
      irun it Ek xk (Z.to_nat (p_max_inner o)) n (repeat (o_zero O) 5) xk (o_zero O) dx ri (pb_pnr pb xk)
           tr (UB u) ->
      prun (S fuel) itol xk dx ri rk w n p (GSub itol it Ek xk :: tr) (UB u)
  | pr_newton fuel itol xk dx ri rk w n p Ek it tr Eo xi dx1 ri1 rk1 n1 :
      Ek = rsd_norm O (pb_pnr pb xk) ->
      o_leb O Ek (pb_combo pb) = false -> o_leb O (var_norm O dx) (p_stall_tol o) = false ->
      saturate O (o_mul O itol (p_delta o)) (p_inner_tol_min o) Ek = Ok it ->
      irun it Ek xk (Z.to_nat (p_max_inner o)) n (repeat (o_zero O) 5) xk (o_zero O) dx ri (pb_pnr pb xk)
           tr (Ok (Eo, xi, dx1, ri1, rk1, n1)) ->
      (p_max_newton o <= n1)%Z ->
      let xr := if o_ltb O Eo Ek then proj_duals O xi else xk in
      prun (S fuel) itol xk dx ri rk w n p (GSub itol it Ek xk :: tr ++ [GProject (proj_duals O xi)])
           (Ok (done MAXITERATIONS (pb_pnr pb xr) n1 p, xr))
  | pr_infeas fuel itol xk dx ri rk w n p Ek it tr Eo xi dx1 ri1 rk1 n1 dx2 w1 fs :
      Ek = rsd_norm O (pb_pnr pb xk) ->
      o_leb O Ek (pb_combo pb) = false -> o_leb O (var_norm O dx) (p_stall_tol o) = false ->
      saturate O (o_mul O itol (p_delta o)) (p_inner_tol_min o) Ek = Ok it ->
      irun it Ek xk (Z.to_nat (p_max_inner o)) n (repeat (o_zero O) 5) xk (o_zero O) dx ri (pb_pnr pb xk)
           tr (Ok (Eo, xi, dx1, ri1, rk1, n1)) ->
      (n1 < p_max_newton o)%Z ->
      dx2 = pb_axpy pb (o_mone O) xk (proj_duals O xi) ->
      p_check_feas o = true -> pb_feas pb w dx2 = (w1, fs) -> fs <> FS_FEASIBLE ->
      prun (S fuel) itol xk dx ri rk w n p
           (GSub itol it Ek xk :: tr ++ [GProject (proj_duals O xi); GProx dx2])
           (Ok (done (flag_of fs) rk1 n1 p, dx2))
  | pr_next fuel itol xk dx ri rk w n p Ek it tr Eo xi dx1 ri1 rk1 n1 dx2 w1 tr2 r :
      Ek = rsd_norm O (pb_pnr pb xk) ->
      o_leb O Ek (pb_combo pb) = false -> o_leb O (var_norm O dx) (p_stall_tol o) = false ->
      saturate O (o_mul O itol (p_delta o)) (p_inner_tol_min o) Ek = Ok it ->
      irun it Ek xk (Z.to_nat (p_max_inner o)) n (repeat (o_zero O) 5) xk (o_zero O) dx ri (pb_pnr pb xk)
           tr (Ok (Eo, xi, dx1, ri1, rk1, n1)) ->
      (n1 < p_max_newton o)%Z ->
      dx2 = pb_axpy pb (o_mone O) xk (proj_duals O xi) ->
      (p_check_feas o = true /\ pb_feas pb w dx2 = (w1, FS_FEASIBLE) \/
       p_check_feas o = false /\ w1 = w) ->
      prun fuel it (proj_duals O xi) dx2 ri1 rk1 w1 n1 (p + 1)%Z tr2 r ->
      prun (S fuel) itol xk dx ri rk w n p
           (GSub itol it Ek xk :: tr ++ [GProject (proj_duals O xi); GProx dx2] ++ tr2) r.

  Lemma pprox_prun fuel : forall itol xk dx ri rk w n p,
    prun fuel itol xk dx ri rk w n p
      (snd (fst (pprox O o pb el E0 fuel itol xk dx ri rk w n p)))
      (snd (pprox O o pb el E0 fuel itol xk dx ri rk w n p)).
  Proof.
    induction fuel as [|fuel IH]; intros itol xk dx ri rk w n p; cbn [pprox].
    - unfold poutput. cbn [wbind wlog wret fst snd app]. rewrite ?app_nil_r. constructor.
    - set (Ek := rsd_norm O (pb_pnr pb xk)).
      destruct (o_leb O Ek (pb_combo pb) || o_leb O (var_norm O dx) (p_stall_tol o)) eqn:ES.
      + unfold poutput. cbn [wbind wlog wret fst snd app]. rewrite ?app_nil_r.
        apply pr_success. apply orb_true_iff in ES. exact ES.
      + apply orb_false_iff in ES. destruct ES as [ES1 ES2].
        cbn [wbind wlog wret wlift fst snd app].
        destruct (saturate O (o_mul O itol (p_delta o)) (p_inner_tol_min o) Ek) as [it|e|u] eqn:ET.
        2: { cbn [wbind wlog wret wlift fst snd app]. eapply pr_sat; eauto. }
        2: { unfold saturate in ET. destruct (o_ltb _ _ _); discriminate. }
        unfold psub.
        pose proof (pinner_irun it Ek xk (Z.to_nat (p_max_inner o)) 0%Z (o_one O) (o_zero O) xk dx ri
                      (pb_pnr pb xk) n (repeat (o_zero O) 5)) as PI.
        destruct (pinner O o pb (Z.to_nat (p_max_inner o)) 0%Z (o_one O) (o_zero O) it Ek xk xk dx ri
                      (pb_pnr pb xk) n (repeat (o_zero O) 5)) as [[lg tr] [[[[[[Eo xi] dx1] ri1] rk1] n1]|e|u]];
          cbn [wbind wlog wret wlift wghost fst snd app] in *.
        * destruct (Z.leb_spec (p_max_newton o) n1).
          -- unfold poutput. cbn [wbind wlog wret wlift wghost fst snd app].
             rewrite ?app_nil_r. eapply pr_newton; eauto.
          -- cbn [wbind wlog wret wlift wghost fst snd app].
             set (dx2 := pb_axpy pb (o_mone O) xk (proj_duals O xi)).
             destruct (if p_check_feas o then pb_feas pb w dx2 else (w, FS_FEASIBLE)) as [w1 fs] eqn:EF.
             assert (NX : fs = FS_FEASIBLE ->
               p_check_feas o = true /\ pb_feas pb w dx2 = (w1, FS_FEASIBLE) \/
               p_check_feas o = false /\ w1 = w).
             { intros ->. destruct (p_check_feas o); [left; auto|right]. injection EF as <-. auto. }
             assert (IF : fs <> FS_FEASIBLE -> p_check_feas o = true /\ pb_feas pb w dx2 = (w1, fs)).
             { intros NE. destruct (p_check_feas o); [auto|]. injection EF as <- <-. destruct NE; reflexivity. }
             destruct fs; cbn [flag_of].
             { specialize (IH it (proj_duals O xi) dx2 ri1 rk1 w1 n1 (p + 1)%Z).
               destruct (pprox O o pb el E0 fuel it (proj_duals O xi) dx2 ri1 rk1 w1 n1 (p + 1)%Z)
                 as [[lg2 tr2] r2]. cbn [fst snd app] in *.
               rewrite <- app_assoc. cbn [app].
               change (GProject (proj_duals O xi) :: GProx dx2 :: tr2) with
                 ([GProject (proj_duals O xi); GProx dx2] ++ tr2).
               eapply pr_next; eauto. }
             all: unfold poutput; cbn [wbind wlog wret wlift wghost fst snd app];
               rewrite ?app_nil_r, <- app_assoc; cbn [app];
               destruct (IF ltac:(discriminate)) as [I1 I2];
               match goal with |- context [done ?f] => idtac | |- context [mkOut ?f] => idtac end.
             { change PRIMAL_INFEASIBLE with (flag_of FS_PRIMAL). eapply pr_infeas; eauto; discriminate. }
             { change DUAL_INFEASIBLE with (flag_of FS_DUAL). eapply pr_infeas; eauto; discriminate. }
             { change PRIMAL_DUAL_INFEASIBLE with (flag_of FS_BOTH). eapply pr_infeas; eauto; discriminate. }
        * eapply pr_throw; eauto.
        * eapply pr_ub; eauto.
  Qed.
End Loops.
