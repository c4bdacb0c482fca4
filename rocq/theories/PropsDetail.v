(* C16, completed: what a Solve call prints, at every display level, line by line. *)
From Verif Require Export PropsSim PropsRun.

(* ---------- specification ---------- *)
(* What is printed while the events of a run happen.  p and n count the proximal and the Newton iterations
   so far; i, t, tol, Ek are the line number, the last step length, the tolerance and the outer residual
   of the current subproblem.  The last three arguments are n, tol at the end and the printed lines. *)
(* the display levels: one line per iterate at ITER only, the details at ITER_DETAILED only, the summary
   at every level but OFF *)
Definition shows_iterates (d : display) : bool := match d with ITER => true | OFF | FINAL | ITER_DETAILED => false end.
Definition shows_details (d : display) : bool := match d with ITER_DETAILED => true | OFF | FINAL | ITER => false end.
Definition shows_summary (d : display) : bool := match d with OFF => false | FINAL | ITER | ITER_DETAILED => true end.
Section Shown.
  Context {T : Type} (O : Ops T) (o : params T).
  Context (outer : var T -> rsd T)             (* the natural residual at a point *)
          (inner : var T -> var T -> rsd T).   (* the residual of the subproblem with a given centre *)
  Definition at_iter (l : list (event T)) : list (event T) := if shows_iterates (p_display o) then l else [].
  Definition at_detailed (l : list (event T)) : list (event T) := if shows_details (p_display o) then l else [].
  (* the line of a proximal iterate with residual rk *)
  Definition iterate_lines (p n : Z) (rk : rsd T) (ri tol : T) : list (event T) :=
    at_iter [EvIterLine p n (r_zn rk) (r_ln rk) (r_vn rk) ri tol].
  Inductive shown : Z -> Z -> Z -> T -> T -> T -> var T -> list (ghost T) -> Z -> T -> list (event T) -> Prop :=
  | sh_end p n i t tol Ek c : shown p n i t tol Ek c [] n tol []
  | sh_sub p n i t tol0 Ek0 c0 prev tol Ek c ri tr n' tol' l :
      rsd_norm O (outer c) = Ek -> shown p n 0 (o_one O) tol Ek c tr n' tol' l ->
      shown p n i t tol0 Ek0 c0 (GSub prev tol Ek c :: tr) n' tol'
        (at_detailed [EvDetHeader p n Ek] ++ iterate_lines p n (outer c) ri prev ++ l)
  | sh_test p n i t tol Ek c x Ei Eo tr n' tol' l :
      rsd_norm O (inner x c) = Ei -> shown p n i t tol Ek c tr n' tol' l ->
      shown p n i t tol Ek c (GInner x Ei Eo :: tr) n' tol'
        (at_detailed [EvDetLine i t (r_zn (inner x c)) (r_ln (inner x c)) (r_vn (inner x c))] ++
         (if (o_leb O Ei tol && o_ltb O Eo Ek) || o_leb O Ei (p_inner_tol_min o)
          then at_detailed [EvDetFooter Ei tol] else []) ++ l)
  | sh_lin p n i t tol Ek c x xb tr n' tol' l : shown p (n + 1) i t tol Ek c tr n' tol' l ->
      shown p n i t tol Ek c (GLin x xb :: tr) n' tol' l
  | sh_merit p n i t tol Ek c x m tr n' tol' l : shown p n i t tol Ek c tr n' tol' l ->
      shown p n i t tol Ek c (GMerit x m :: tr) n' tol' l
  | sh_step p n i t tol Ek c x dx cm m0 t' j acc x' tr n' tol' l : shown p n (i + 1) t' tol Ek c tr n' tol' l ->
      shown p n i t tol Ek c (GStep x dx cm m0 t' j acc x' :: tr) n' tol' l
  | sh_project p n i t tol Ek c x tr n' tol' l : shown p n i t tol Ek c tr n' tol' l ->
      shown p n i t tol Ek c (GProject x :: tr) n' tol' l
  | sh_prox p n i t tol Ek c dx tr n' tol' l : shown (p + 1) n i t tol Ek c tr n' tol' l ->
      shown p n i t tol Ek c (GProx dx :: tr) n' tol' l.
End Shown.

(* What is printed after the last event: on a normal return the line of the final iterate (if it was found
   optimal) and the summary, which agree on the residual; after an exception nothing, or the heading of
   the iterate whose subproblem was not started. *)
Definition closing {T} (O : Ops T) (o : params T) (outer : var T -> rsd T) (tol el last : T) (p n : Z)
    (r : res (solver_out T)) (x : var T) (l : list (event T)) : Prop :=
  match r with
  | Ok out => n = so_newton out /\ exists rk ri, rsd_norm O rk = so_residual out /\
      (so_eflag out = SUCCESS -> rk = outer x) /\
      l = match so_eflag out with
          | SUCCESS => iterate_lines o (so_prox out) (so_newton out) rk ri last | _ => [] end ++
          (if shows_summary (p_display o)
           then [EvFinal (so_eflag out) (o_mul O (o_dec O 1000 0) el) (so_prox out) (p_max_prox o)
                   (so_newton out) (p_max_newton o) (r_zn rk) (r_ln rk) (r_vn rk) tol] else [])
  | _ => l = [] \/ exists c ri, l = at_detailed o [EvDetHeader p n (rsd_norm O (outer c))] ++ iterate_lines o p n (outer c) ri last
  end.
(* the number of proximal steps of a trace *)
Definition prox_steps {T} (tr : list (ghost T)) : Z :=
  Z.of_nat (count (fun g => match g with GProx _ => true | _ => false end) tr).
(* all the components of the two residuals, by the public methods *)
Definition kkt_parts {T D} (O : Ops T) (DI : DataI T D) (d : D) (nz nl nv : nat) (alpha : T) (x : var T) : res (rsd T) :=
  (r <- fr_pnr O DI (at_point d nz nl nv x) (blank_residual O d nz nl nv alpha) ;; Ok (fr_r r))%res.
Definition sub_parts {T D} (O : Ops T) (DI : DataI T D) (d : D) (nz nl nv : nat) (alpha sigma : T) (x c : var T) : res (rsd T) :=
  (r <- fr_inner O DI (at_point d nz nl nv x) (at_point d nz nl nv c) sigma (blank_residual O d nz nl nv alpha) ;;
   Ok (fr_r r))%res.

(* ---------- proofs ---------- *)
Lemma summary_level d : ge_final d = shows_summary d.
Proof. destruct d; reflexivity. Qed.
Section Detail.
  Context {T : Type} (O : Ops T) (o : params T) (pb : prob T).
  Notation sh := (shown O o (pb_pnr pb) (pb_inner pb)).
  Definition tr {A} (m : W T A) : list (ghost T) := snd (fst m).
  Lemma tr_bind {A B} (m : W T A) (f : A -> W T B) :
    tr (wbind m f) = tr m ++ match snd m with Ok a => tr (f a) | _ => [] end.
  Proof.
    destruct m as [[l t] r]. unfold tr; cbn. destruct r as [a|e|u]; cbn.
    - destruct (f a) as [[l2 t2] r2]. reflexivity.
    - symmetry; apply app_nil_r.
    - symmetry; apply app_nil_r.
  Qed.

  (* the merits of a line search print nothing *)
  Lemma pls_shown fuel : forall j t0 m0 cm x xb dx ri p n i t tol Ek c rest n' tol' l,
    sh p n i t tol Ek c rest n' tol' l ->
    sh p n i t tol Ek c (tr (pls O o pb fuel j t0 m0 cm x xb dx ri) ++ rest) n' tol' l.
  Proof.
    induction fuel as [|fuel IH]; intros; cbn [pls]; [exact H|].
    rewrite tr_bind. cbn [snd wghost]. change (tr (wghost ?g)) with [g]. cbn [app].
    apply sh_merit. destruct (o_leb O _ _); [exact H|apply IH; exact H].
  Qed.
  Lemma pstep_shown x xb ri m p n i t tol Ek c rest n' tol' l :
    match snd (pstep O o pb x xb ri m) with
    | Ok (t', _, _, _, _) => sh p (n + 1) (i + 1) t' tol Ek c rest n' tol' l
    | _ => rest = [] /\ n' = n /\ tol' = tol /\ l = []
    end ->
    sh p n i t tol Ek c (tr (pstep O o pb x xb ri m) ++ rest) n' tol' l.
  Proof.
    unfold pstep. rewrite snd_bind, tr_bind. cbn [snd wlift]. change (tr (wlift ?g)) with (@nil (ghost T)).
    destruct (pb_newton pb x xb (rsd_neg O ri)) as [dx|e|u].
    2,3: intros (-> & -> & -> & ->); cbn [app]; constructor.
    rewrite snd_bind, tr_bind. cbn [snd wghost]. change (tr (wghost ?g)) with [g]. cbn [app].
    set (m0 := if p_nonmonotone o then _ else _). set (cm := rsd_merit O ri).
    rewrite snd_bind, tr_bind.
    pose proof (pls_shown (Z.to_nat (p_max_ls o)) 0 (o_one O) m0 cm x xb dx (rsd_neg O ri)) as PL.
    destruct (snd (pls O o pb (Z.to_nat (p_max_ls o)) 0 (o_one O) m0 cm x xb dx (rsd_neg O ri))) as [[[[t' j] acc] ri']|e|u] eqn:EP.
    - rewrite snd_bind, tr_bind. cbn [snd wghost wret]. change (tr (wghost ?g)) with [g].
      change (tr (wret ?g)) with (@nil (ghost T)). cbn [app]. intro H. apply sh_lin. rewrite <- app_assoc. apply PL.
      cbn [app]. apply sh_step. exact H.
    - exfalso. revert EP. generalize 0 (o_one O) (rsd_neg O ri). induction (Z.to_nat (p_max_ls o)) as [|f IH]; intros j t0 ri0; cbn [pls]; [discriminate|].
      rewrite snd_bind. cbn [snd wghost]. destruct (o_leb O _ _); [discriminate|]. apply IH.
      intros. apply pls_shown. assumption.
    - exfalso. revert EP. generalize 0 (o_one O) (rsd_neg O ri). induction (Z.to_nat (p_max_ls o)) as [|f IH]; intros j t0 ri0; cbn [pls]; [discriminate|].
      rewrite snd_bind. cbn [snd wghost]. destruct (o_leb O _ _); [discriminate|]. apply IH.
      intros. apply pls_shown. assumption.
  Qed.
  Lemma pinner_shown fuel : forall p i t Eo tol Ek x xb dx ri rk n m rest n' tol' l,
    match snd (pinner O o pb fuel i t Eo tol Ek x xb dx ri rk n m) with
    | Ok (_, _, _, _, _, n1) => forall i t, sh p n1 i t tol Ek xb rest n' tol' l
    | _ => rest = [] /\ l = [] /\ tol' = tol /\ True
    end ->
    exists n'', (is_ok (snd (pinner O o pb fuel i t Eo tol Ek x xb dx ri rk n m)) = true -> n'' = n') /\
    sh p n i t tol Ek xb (tr (pinner O o pb fuel i t Eo tol Ek x xb dx ri rk n m) ++ rest) n'' tol'
       (lg (pinner O o pb fuel i t Eo tol Ek x xb dx ri rk n m) ++ l).
  Proof.
    induction fuel as [|fuel IH]; intros p i t Eo tol Ek x xb dx ri rk n m rest n' tol' l; cbn [pinner].
    - cbn [snd wret]. intro H. exists n'. split; [auto|]. apply H.
    - rewrite snd_bind, tr_bind, lg_bind. cbn [snd wghost]. change (tr (wghost ?g)) with [g]. change (lg (wghost ?g)) with (@nil (event T)).
      cbn [app]. set (ri0 := pb_inner pb x xb). set (rk0 := pb_pnr pb x).
      destruct ((o_leb O (rsd_norm O ri0) tol && o_ltb O (rsd_norm O rk0) Ek) || o_leb O (rsd_norm O ri0) (p_inner_tol_min o)) eqn:ES.
      + cbn [wbind wlog wret snd is_ok]. intro H. exists n'. split; [auto|]. unfold tr, lg; cbn [fst snd app]. rewrite app_nil_r.
        unfold det_line, det_footer. pose proof (sh_test O o (pb_pnr pb) (pb_inner pb) p n i t tol Ek xb x _ (rsd_norm O rk0) rest n' tol' l eq_refl (H i t)) as K.
        fold ri0 in K. rewrite ES in K. unfold at_detailed in K. rewrite <- app_assoc. exact K.
      + rewrite snd_bind, tr_bind, lg_bind. cbn [snd wlog]. change (tr (wlog ?g)) with (@nil (ghost T)). change (lg (wlog ?g)) with g. cbn [app].
        assert (K : forall tr1 n1 tol1 l1, sh p n i t tol Ek xb tr1 n1 tol1 l1 ->
          sh p n i t tol Ek xb (GInner x (rsd_norm O ri0) (rsd_norm O rk0) :: tr1) n1 tol1 (det_line o i t ri0 ++ l1)).
        { intros tr1 n1 tol1 l1 H1. pose proof (sh_test O o (pb_pnr pb) (pb_inner pb) p n i t tol Ek xb x _ (rsd_norm O rk0) tr1 n1 tol1 l1 eq_refl H1) as K.
          fold ri0 in K. rewrite ES in K. cbn [app] in K. exact K. }
        destruct (p_max_newton o <=? n)%Z.
        * cbn [snd wret is_ok]. intro H. exists n'. split; [auto|]. cbn [tr lg fst snd app wret]. rewrite app_nil_r. apply K. apply H.
        * rewrite snd_bind, tr_bind, lg_bind, pstep_log. cbn [app].
          pose proof (pstep_shown x xb ri0 m p n i t tol Ek xb) as PS.
          destruct (snd (pstep O o pb x xb ri0 m)) as [[[[[t' x'] dx'] ri'] m']|e|u] eqn:EP.
          -- intro H. destruct (IH p (i + 1)%Z t' (rsd_norm O rk0) tol Ek x' xb dx' ri' rk0 (n + 1)%Z m' rest n' tol' l H) as (n'' & HO & HS).
             exists n''. split; [exact HO|]. rewrite <- !app_assoc. apply K. apply PS. exact HS.
          -- cbn [is_ok]. intros (-> & -> & -> & _). exists n. split; [discriminate|]. rewrite !app_nil_r.
             rewrite <- (app_nil_r (det_line o i t ri0)). apply K. rewrite <- (app_nil_r (tr _)). apply PS. auto.
          -- cbn [is_ok]. intros (-> & -> & -> & _). exists n. split; [discriminate|]. rewrite !app_nil_r.
             rewrite <- (app_nil_r (det_line o i t ri0)). apply K. rewrite <- (app_nil_r (tr _)). apply PS. auto.
  Qed.
  Lemma psub_shown p i t tol0 Ek0 c0 prev it ri0 tol Ek xk dx ri rk n rest n' tol' l :
    rsd_norm O (pb_pnr pb xk) = Ek -> 
    match snd (psub O o pb tol Ek xk dx ri rk n) with
    | Ok (_, _, _, _, _, n1) => forall i t, sh p n1 i t tol Ek xk rest n' tol' l
    | _ => rest = [] /\ l = [] /\ tol' = tol /\ True
    end ->
    it = tol ->
    exists n'', (is_ok (snd (psub O o pb tol Ek xk dx ri rk n)) = true -> n'' = n') /\
    sh p n i t tol0 Ek0 c0 (GSub prev it Ek xk :: tr (psub O o pb tol Ek xk dx ri rk n) ++ rest) n'' tol'
       (at_detailed o [EvDetHeader p n Ek] ++ iterate_lines o p n (pb_pnr pb xk) ri0 prev ++ lg (psub O o pb tol Ek xk dx ri rk n) ++ l).
  Proof.
    intros EK H ->. revert H. unfold psub. rewrite snd_bind, tr_bind, lg_bind.
    pose proof (pinner_shown (Z.to_nat (p_max_inner o)) p 0 (o_one O) (o_zero O) tol Ek xk xk dx ri rk n (repeat (o_zero O) 5)) as PI.
    destruct (snd (pinner O o pb _ _ _ _ _ _ _ _ _ _ _ _ _)) as [[[[[[E1 x1] d1] r1] k1] n1]|e|u].
    - rewrite snd_bind. cbn [snd wghost wret is_ok]. intro H.
      destruct (PI (GProject (proj_duals O x1) :: rest) n' tol' l) as (n'' & HO & HS).
      { intros. apply sh_project. apply H. }
      exists n''. split; [exact HO|]. cbn [wbind wghost wret tr lg fst snd app]. rewrite ?app_nil_r.
      apply sh_sub; [exact EK|]. rewrite <- app_assoc. exact HS.
    - cbn [is_ok]. intros (-> & -> & -> & _). destruct (PI [] n tol []) as (n'' & _ & HS); [auto|]. exists n''. split; [discriminate|].
      apply sh_sub; [exact EK|]. rewrite !app_nil_r in *. exact HS.
    - cbn [is_ok]. intros (-> & -> & -> & _). destruct (PI [] n tol []) as (n'' & _ & HS); [auto|]. exists n''. split; [discriminate|].
      apply sh_sub; [exact EK|]. rewrite !app_nil_r in *. exact HS.
  Qed.

  (* no proximal step happens inside a subproblem *)
  Lemma prox_steps_app (a b : list (ghost T)) : prox_steps (a ++ b) = (prox_steps a + prox_steps b)%Z.
  Proof. unfold prox_steps. rewrite count_app. lia. Qed.
  Lemma pls_prox fuel : forall j t0 m0 cm x xb dx ri, prox_steps (tr (pls O o pb fuel j t0 m0 cm x xb dx ri)) = 0%Z.
  Proof.
    induction fuel as [|fuel IH]; intros; cbn [pls]; [reflexivity|].
    rewrite tr_bind. cbn [snd wghost]. change (tr (wghost ?g)) with [g]. rewrite prox_steps_app.
    destruct (o_leb O _ _); [reflexivity|rewrite IH; reflexivity].
  Qed.
  Lemma pstep_prox x xb ri m : prox_steps (tr (pstep O o pb x xb ri m)) = 0%Z.
  Proof.
    unfold pstep. rewrite tr_bind. cbn [snd wlift]. change (tr (wlift ?g)) with (@nil (ghost T)).
    destruct (pb_newton pb x xb (rsd_neg O ri)) as [dx|e|u]; [|reflexivity|reflexivity].
    rewrite tr_bind. cbn [snd wghost]. change (tr (wghost ?g)) with [g].
    rewrite tr_bind, !prox_steps_app, pls_prox. destruct (snd (pls O o pb _ _ _ _ _ _ _ _ _)) as [[[[t' j] acc] ri']|e|u]; reflexivity.
  Qed.
  Lemma pinner_prox fuel : forall i t Eo tol Ek x xb dx ri rk n m,
    prox_steps (tr (pinner O o pb fuel i t Eo tol Ek x xb dx ri rk n m)) = 0%Z.
  Proof.
    induction fuel as [|fuel IH]; intros; cbn [pinner]; [reflexivity|].
    rewrite tr_bind. cbn [snd wghost]. change (tr (wghost ?g)) with [g]. rewrite prox_steps_app.
    destruct (_ || _); [reflexivity|]. rewrite tr_bind. cbn [snd wlog]. change (tr (wlog ?g)) with (@nil (ghost T)).
    destruct (_ <=? _)%Z; [reflexivity|]. rewrite tr_bind, !prox_steps_app, pstep_prox.
    destruct (snd (pstep O o pb _ _ _ _)) as [[[[[t' x'] dx'] ri'] m']|e|u]; [|reflexivity|reflexivity]. rewrite IH. reflexivity.
  Qed.
  Lemma psub_prox tol Ek xk dx ri rk n : prox_steps (tr (psub O o pb tol Ek xk dx ri rk n)) = 0%Z.
  Proof.
    unfold psub. rewrite tr_bind, prox_steps_app, pinner_prox.
    destruct (snd (pinner O o pb _ _ _ _ _ _ _ _ _ _ _ _ _)) as [[[[[[E1 x1] d1] r1] k1] n1]|e|u]; reflexivity.
  Qed.

  Definition rout (r : res (solver_out T * var T)) : res (solver_out T) :=
    match r with Ok (out, _) => Ok out | Throw e => Throw e | UB u => UB u end.
  Definition xout (r : res (solver_out T * var T)) : var T :=
    match r with Ok (_, x) => x | _ => pones O pb 0 0 0 end.
  Lemma exit_shown e el E0 n p rk x :
    let m := (out <<- poutput O o pb e el E0 n p rk ;; wret (out, x))%w in
    tr m = [] /\ lg m = final_line o pb e (o_mul O (o_dec O 1000 0) el) p n rk /\
    rout (snd m) = Ok (mkOut e (rsd_norm O rk) n p el E0) /\ xout (snd m) = x.
  Proof.
    cbv zeta. destruct (exit_log O o pb e el E0 n p rk x 0) as ((A & B) & _). rewrite A, B. repeat split.
  Qed.
  Lemma closing_exit e el E0 n p rk x last q : e <> SUCCESS ->
    let m := (out <<- poutput O o pb e el E0 n p rk ;; wret (out, x))%w in
    tr m = [] /\ closing O o (pb_pnr pb) (pb_combo pb) el last q n (rout (snd m)) (xout (snd m)) (lg m).
  Proof.
    intro NE. cbv zeta. destruct (exit_shown e el E0 n p rk x) as (A & B & C & D). rewrite A, B, C, D. split; [reflexivity|].
    cbn [closing so_newton so_residual so_eflag so_prox]. split; [reflexivity|]. exists rk, (o_zero O). split; [reflexivity|]. split; [congruence|].
    unfold final_line; rewrite summary_level; destruct e; try congruence; reflexivity.
  Qed.
  (* before the next subproblem starts the line number, step, outer residual and centre are not read *)
  Lemma shown_start p n i t tol Ek c tr0 n' tol' l i0 t0 Ek0 c0 :
    match tr0 with [] => True | GSub _ _ _ _ :: _ => True | _ => False end ->
    sh p n i t tol Ek c tr0 n' tol' l -> sh p n i0 t0 tol Ek0 c0 tr0 n' tol' l.
  Proof. intros HD H. destruct tr0 as [|[] rest]; try contradiction; inversion H; subst; [apply sh_end|apply sh_sub; [reflexivity|assumption]]. Qed.
  Lemma pprox_head el E0 fuel itol xk dx ri rk w n p :
    match tr (pprox O o pb el E0 fuel itol xk dx ri rk w n p) with [] => True | GSub _ _ _ _ :: _ => True | _ => False end.
  Proof.
    destruct fuel as [|fuel]; cbn [pprox].
    - exact I.
    - destruct (_ || _); [exact I|]. rewrite tr_bind. cbn [snd wlog]. change (tr (wlog ?l)) with (@nil (ghost T)). cbn [app].
      rewrite tr_bind. cbn [snd wlift]. change (tr (wlift ?l)) with (@nil (ghost T)). cbn [app].
      destruct (saturate O _ _ _); [|exact I|exact I]. rewrite tr_bind. exact I.
  Qed.
  Lemma pprox_shown el E0 fuel : forall itol xk dx ri rk w n p i t Ek c,
    let m := pprox O o pb el E0 fuel itol xk dx ri rk w n p in
    exists n' tol' lines tail, lg m = lines ++ tail /\ sh p n i t itol Ek c (tr m) n' tol' lines /\
      closing O o (pb_pnr pb) (pb_combo pb) el tol' (p + prox_steps (tr m)) n' (rout (snd m)) (xout (snd m)) tail.
  Proof.
    induction fuel as [|fuel IH]; intros itol xk dx ri rk w n p i t Ek c; cbv zeta; cbn [pprox].
    - destruct (closing_exit MAXITERATIONS el E0 n p rk xk itol (p + 0)%Z ltac:(discriminate)) as (A & B).
      exists n, itol, []. eexists. split; [reflexivity|]. rewrite A. split; [constructor|exact B].
    - set (rk0 := pb_pnr pb xk). destruct (_ || _).
      + rewrite lg_bind, tr_bind, snd_bind. cbn [snd wlog]. change (lg (wlog ?l)) with l. change (tr (wlog ?l)) with (@nil (ghost T)).
        destruct (exit_shown SUCCESS el E0 n p rk0 xk) as (A & B & C & D). rewrite A, B, C, D. cbn [app].
        exists n, itol, []. eexists. split; [reflexivity|]. split; [constructor|].
        cbn [closing so_newton so_residual so_eflag so_prox]. split; [reflexivity|]. exists rk0, (rsd_norm O ri). unfold final_line; rewrite summary_level. repeat split.
      + rewrite lg_bind, tr_bind, snd_bind. cbn [snd wlog]. change (lg (wlog ?l)) with l. change (tr (wlog ?l)) with (@nil (ghost T)). cbn [app].
        rewrite lg_bind, tr_bind, snd_bind. cbn [snd wlift]. change (lg (wlift ?l)) with (@nil (event T)). change (tr (wlift ?l)) with (@nil (ghost T)). cbn [app].
        change (iter_line O o p n rk0 ri itol) with (iterate_lines o p n rk0 (rsd_norm O ri) itol).
        change (det_header O o p n rk0) with (at_detailed o [EvDetHeader p n (rsd_norm O rk0)]).
        destruct (saturate O _ _ _) as [it|e|u] eqn:ES.
        2,3: exists n, itol, []; eexists; (split; [reflexivity|]); (split; [constructor|]); cbn [rout closing]; right; unfold prox_steps; cbn [count]; rewrite Z.add_0_r; exists xk, (rsd_norm O ri); apply app_nil_r.
        rewrite lg_bind, tr_bind, snd_bind. cbn [snd wghost]. change (lg (wghost ?l)) with (@nil (event T)). change (tr (wghost ?l)) with [l]. cbn [app].
        rewrite lg_bind, tr_bind, snd_bind.
        pose proof (psub_shown p i t itol Ek c itol it (rsd_norm O ri) it (rsd_norm O rk0) xk dx ri rk0 n) as PS.
        destruct (snd (psub O o pb it _ xk dx ri rk0 n)) as [[[[[[E1 x1] d1] r1] k1] n1]|e|u].
        2,3: destruct (PS [] n it [] eq_refl) as (n'' & _ & HS); [auto|reflexivity|];
             exists n'', it; eexists; exists []; (split; [|split; [exact HS|left; reflexivity]]); rewrite ?app_nil_r, <- ?app_assoc, ?app_nil_r; reflexivity.
        assert (FIN : forall rest nn tl ll tail, (forall i t, sh p n1 i t it (rsd_norm O rk0) xk rest nn tl ll) ->
          exists n' tol' lines tail', (at_detailed o [EvDetHeader p n (rsd_norm O rk0)] ++ iterate_lines o p n rk0 (rsd_norm O ri) itol) ++
              lg (psub O o pb it (rsd_norm O rk0) xk dx ri rk0 n) ++ ll ++ tail = lines ++ tail' /\
            sh p n i t itol Ek c (GSub itol it (rsd_norm O rk0) xk :: tr (psub O o pb it (rsd_norm O rk0) xk dx ri rk0 n) ++ rest) n' tol' lines /\
            n' = nn /\ tol' = tl /\ tail' = tail).
        { intros rest nn tl ll tail H. destruct (PS rest nn tl ll eq_refl H eq_refl) as (n'' & HO & HS). specialize (HO eq_refl). subst n''.
          exists nn, tl. eexists. exists tail. split; [|split; [exact HS|auto]]. rewrite <- !app_assoc. reflexivity. }
        destruct (p_max_newton o <=? n1)%Z.
        * set (xr := if o_ltb O E1 (rsd_norm O rk0) then x1 else xk).
          destruct (closing_exit MAXITERATIONS el E0 n1 p (pb_pnr pb xr) xr it (p + prox_steps (GSub itol it (rsd_norm O rk0) xk :: tr (psub O o pb it (rsd_norm O rk0) xk dx ri rk0 n) ++ []))%Z ltac:(discriminate)) as (A & B).
          rewrite A. destruct (FIN [] n1 it [] (lg (out <<- poutput O o pb MAXITERATIONS el E0 n1 p (pb_pnr pb xr) ;; wret (out, xr))%w)) as (n' & tol' & lines & tail' & F1 & F2 & -> & -> & ->).
          { intros; constructor. }
          do 4 eexists. split; [exact F1|]. split; [exact F2|exact B].
        * rewrite lg_bind, tr_bind, snd_bind. cbn [snd wghost]. change (lg (wghost ?l)) with (@nil (event T)). change (tr (wghost ?l)) with [l]. cbn [app].
          set (dx' := pb_axpy pb (o_mone O) xk x1).
          destruct (if p_check_feas o then _ else _) as [w' fs].
          pose (me := fun e => (out <<- poutput O o pb e el E0 n1 p k1 ;; wret (out, dx'))%w).
          assert (EXIT : forall e, e <> SUCCESS -> exists n' tol' lines tail,
            (at_detailed o [EvDetHeader p n (rsd_norm O rk0)] ++ iterate_lines o p n rk0 (rsd_norm O ri) itol) ++
              lg (psub O o pb it (rsd_norm O rk0) xk dx ri rk0 n) ++ lg (me e) = lines ++ tail /\
            sh p n i t itol Ek c (GSub itol it (rsd_norm O rk0) xk :: tr (psub O o pb it (rsd_norm O rk0) xk dx ri rk0 n) ++ GProx dx' :: tr (me e)) n' tol' lines /\
            closing O o (pb_pnr pb) (pb_combo pb) el tol' (p + prox_steps (GSub itol it (rsd_norm O rk0) xk :: tr (psub O o pb it (rsd_norm O rk0) xk dx ri rk0 n) ++ GProx dx' :: tr (me e))) n' (rout (snd (me e))) (xout (snd (me e))) tail).
          { intros e NE. destruct (closing_exit e el E0 n1 p k1 dx' it (p + prox_steps (GSub itol it (rsd_norm O rk0) xk :: tr (psub O o pb it (rsd_norm O rk0) xk dx ri rk0 n) ++ [GProx dx']))%Z NE) as (A & B). fold (me e) in A, B. rewrite A.
            destruct (FIN [GProx dx'] n1 it [] (lg (me e))) as (n' & tol' & lines & tail' & F1 & F2 & -> & -> & ->).
            - intros; apply sh_prox; constructor.
            - do 4 eexists. split; [exact F1|]. split; [exact F2|exact B]. }
          destruct (flag_of fs) eqn:EF.
          2,3,4,5,6: apply EXIT; discriminate.
          set (m := pprox O o pb el E0 fuel it x1 dx' r1 k1 w' n1 (p + 1)%Z).
          pose proof (IH it x1 dx' r1 k1 w' n1 (p + 1)%Z) as IH'. cbv zeta in IH'. fold m in IH'.
          assert (IND : exists n' tol' lines tail, lg m = lines ++ tail /\
                    (forall i t Ek c, sh (p + 1) n1 i t it Ek c (tr m) n' tol' lines) /\
                    closing O o (pb_pnr pb) (pb_combo pb) el tol' (p + 1 + prox_steps (tr m)) n' (rout (snd m)) (xout (snd m)) tail).
          { destruct (IH' 0%Z (o_one O) Ek xk) as (n' & tol' & lines & tail & H1 & H2 & H3). exists n', tol', lines, tail.
            split; [exact H1|]. split; [|exact H3]. intros. eapply shown_start; [apply pprox_head|exact H2]. }
          destruct IND as (n' & tol' & lines & tail & H1 & H2 & H3).
          destruct (FIN (GProx dx' :: tr m) n' tol' lines tail) as (n'' & tol'' & lines' & tail' & F1 & F2 & -> & -> & ->).
          { intros. apply sh_prox. apply H2. }
          do 4 eexists. rewrite H1. split; [exact F1|]. split; [exact F2|].
          replace (p + prox_steps _)%Z with (p + 1 + prox_steps (tr m))%Z; [exact H3|].
          unfold prox_steps. rewrite count_cons, count_app, count_cons. change (Z.of_nat (count _ (tr (psub O o pb it (rsd_norm O rk0) xk dx ri rk0 n)))) with (prox_steps (tr (psub O o pb it (rsd_norm O rk0) xk dx ri rk0 n))).
          pose proof (psub_prox it (rsd_norm O rk0) xk dx ri rk0 n) as NP. unfold prox_steps in NP. lia.
  Qed.
  Lemma pprox_prox el E0 fuel : forall itol xk dx ri rk w n p,
    (0 <= prox_steps (tr (pprox O o pb el E0 fuel itol xk dx ri rk w n p)) <= Z.of_nat fuel)%Z.
  Proof.
    assert (PO : forall e n p rk (x : var T), tr (out <<- poutput O o pb e el E0 n p rk ;; wret (out, x))%w = []).
    { intros. apply exit_shown. }
    assert (Z0 : @prox_steps T [] = 0%Z) by reflexivity.
    induction fuel as [|fuel IH]; intros itol xk dx ri rk w n p; cbn [pprox].
    - rewrite PO, Z0. lia.
    - destruct (_ || _).
      + rewrite tr_bind. cbn [snd wlog]. change (tr (wlog ?l)) with (@nil (ghost T)). rewrite PO. cbn [app]. lia.
      + rewrite tr_bind. cbn [snd wlog]. change (tr (wlog ?l)) with (@nil (ghost T)).
        rewrite tr_bind. cbn [snd wlift]. change (tr (wlift ?l)) with (@nil (ghost T)). cbn [app].
        destruct (saturate O _ _ _) as [it|e|u]; [|lia|lia].
        rewrite tr_bind. cbn [snd wghost]. change (tr (wghost ?l)) with [l].
        rewrite tr_bind, !prox_steps_app, psub_prox. change (prox_steps [GSub _ _ _ _]) with 0%Z.
        destruct (snd (psub O o pb it _ xk dx ri _ n)) as [[[[[[E1 x1] d1] r1] k1] n1]|e|u]; [|lia|lia].
        destruct (_ <=? _)%Z; [rewrite PO; lia|].
        rewrite tr_bind. cbn [snd wghost]. change (tr (wghost ?l)) with [l]. rewrite prox_steps_app.
        change (prox_steps [GProx _]) with 1%Z.
        destruct (if p_check_feas o then _ else _) as [w' fs].
        assert (EX : forall e, (0 <= 0 + (0 + (1 + prox_steps (tr (out <<- poutput O o pb e el E0 n1 p k1 ;; wret (out, pb_axpy pb (o_mone O) xk x1))%w))) <= Z.of_nat (S fuel))%Z).
        { intro e. rewrite PO, Z0. lia. }
        destruct (flag_of fs); try apply EX.
        match goal with |- context[pprox ?a ?b ?c ?d ?e ?f ?g ?h ?i ?j ?k ?l ?m ?n] => pose proof (IH g h i j k l m n) as K end. lia.
  Qed.
End Detail.

Section Prints.
  Context {T : Type} (O : Ops T) (LA : LinAlg T).
  Hypothesis zero_eq : o_eqb O (o_zero O) (o_zero O) = true.
  Context {D : Type} {DI : DataI T D} {d : D} {nz nl nv : nat}
          {o : params T} {x : var T} {el : T} {r : solve_result T}.
  Hypothesis call : solve_call O LA D DI d nz nl nv o x el r.

  (* Everything a call prints, at any display level: the heading at ITER, the lines of the events of the run
     in order, and the closing lines.  (With reversed inner tolerances the call throws at once and prints
     nothing.) *)
  Theorem C16_printed_lines :
    (sr_log r = [] /\ sr_trace r = [] /\ sr_out r = Throw ESaturate) \/
    exists outer inner tol0 n last lines tail,
      (forall y, var_ok nz nl nv y -> kkt_parts O DI d nz nl nv (p_alpha o) y = Ok (outer y)) /\
      (forall y c, var_ok nz nl nv y -> var_ok nz nl nv c ->
         sub_parts O DI d nz nl nv (p_alpha o) (p_sigma0 o) y c = Ok (inner y c)) /\
      sr_log r = at_iter o [EvIterHeader] ++ lines ++ tail /\
      (forall c, shown O o outer inner 0 0 0 (o_one O) tol0 (o_zero O) c (sr_trace r) n last lines) /\
      closing O o outer (tolerance O DI d o) el last (prox_steps (sr_trace r)) n (sr_out r) (sr_x r) tail /\
      (forall out, sr_out r = Ok out -> saturate O (so_initial out) (p_inner_tol_min o) (p_inner_tol_max o) = Ok tol0).
  Proof.
    destruct (call_desc_ex O LA zero_eq _ _ _ _ _ _ _ _ _ _ call) as (pinit & pst & stale & w & CD).
    set (pb := prob_of O DI d nz nl nv pinit pst o).
    assert (HD : DataOk DI d nz nl nv) by exact (cd_data _ _ _ _ _ _ _ _ _ _ _ _ _ _ CD).
    assert (OU : forall y, var_ok nz nl nv y -> kkt_parts O DI d nz nl nv (p_alpha o) y = Ok (pb_pnr pb y)).
    { intros y Hy. unfold kkt_parts.
      destruct (pnr_ok O DI d nz nl nv (pinit:=pinit) (pst:=pst) HD o y _ Hy (blank_rok O nz nl nv)) as [E _].
      unfold FV, FR in E. unfold at_point, blank_residual. rewrite E. reflexivity. }
    assert (INN : forall y c, var_ok nz nl nv y -> var_ok nz nl nv c ->
         sub_parts O DI d nz nl nv (p_alpha o) (p_sigma0 o) y c = Ok (pb_inner pb y c)).
    { intros y yb Hy Hb. unfold sub_parts.
      destruct (inner_ok O DI d nz nl nv (pinit:=pinit) (pst:=pst) HD o y yb _ Hy Hb (blank_rok O nz nl nv)) as [E _].
      unfold FV, FR in E. unfold at_point, blank_residual. rewrite E. reflexivity. }
    assert (INI : forall out, sr_out r = Ok out -> so_initial out = rsd_norm O (pb_pnr pb (pstart pb x))).
    { intros out E. destruct (C44_initial_residual O LA zero_eq call out _ E (br_start O DI d nz nl nv o x el r pinit pst stale w CD)) as (_ & _ & _ & E2).
      rewrite (br_resid O DI d nz nl nv o x el r pinit pst stale w CD) in E2; [injection E2 as <-; reflexivity|].
      apply (cl_start O DI d nz nl nv _ _ _ _ _ _ _ _ CD). }
    revert INI. rewrite (cd_run _ _ _ _ _ _ _ _ _ _ _ _ _ _ CD). fold pb.
    unfold psolve. set (E0 := rsd_norm O _). cbn [wbind wlift].
    destruct (saturate O E0 (p_inner_tol_min o) (p_inner_tol_max o)) as [it|e|u] eqn:ES.
    - intro INI. right. exists (pb_pnr pb), (pb_inner pb).
      pose proof (pprox_shown O o pb el E0 (Z.to_nat (p_max_prox o)) it (pstart pb x)
        (pones O pb nz nl nv) stale (pb_pnr pb (pstart pb x)) w 0%Z 0%Z 0%Z (o_one O) (o_zero O)) as H. cbv zeta in H.
      unfold wlog in *.
      specialize (H (pstart pb x)).
      pose proof (pprox_head O o pb el E0 (Z.to_nat (p_max_prox o)) it (pstart pb x)
        (pones O pb nz nl nv) stale (pb_pnr pb (pstart pb x)) w 0%Z 0%Z) as PH.
      destruct (pprox O o pb el E0 (Z.to_nat (p_max_prox o)) it (pstart pb x) (pones O pb nz nl nv) stale
                 (pb_pnr pb (pstart pb x)) w 0%Z 0%Z) as [[l t] res].
      destruct H as (n' & tol' & lines & tail & E1 & E2 & E3).
      unfold lg in E1; unfold tr in PH, E2; cbn [fst snd] in E1, E2, E3, PH. subst l.
      exists it, n', tol', lines, tail. split; [exact OU|]. split; [exact INN|].
      cbn [app fst snd] in *.
      destruct res as [[out xx]|e|u]; cbn [presult sr_log sr_out sr_trace sr_x rout xout] in *.
      + split; [reflexivity|]. split; [intro; eapply shown_start; [exact PH|exact E2]|]. split; [exact E3|]. intros out' E'. rewrite (INI out' E'). exact ES.
      + split; [reflexivity|]. split; [intro; eapply shown_start; [exact PH|exact E2]|]. split; [exact E3|]. discriminate.
      + split; [reflexivity|]. split; [intro; eapply shown_start; [exact PH|exact E2]|]. split; [exact E3|]. discriminate.
    - intros _. left. cbn. unfold saturate in ES. destruct (o_ltb O _ _); inversion ES. repeat split.
    - unfold saturate in ES. destruct (o_ltb O _ _); discriminate.
  Qed.
  (* the proximal steps of a run respect the limit *)
  Lemma prox_steps_limit : (0 <= prox_steps (sr_trace r) <= Z.max 0 (p_max_prox o))%Z.
  Proof.
    destruct (call_desc_ex O LA zero_eq _ _ _ _ _ _ _ _ _ _ call) as (pinit & pst & stale & w & CD).
    rewrite (cd_run _ _ _ _ _ _ _ _ _ _ _ _ _ _ CD). set (pb := prob_of O DI d nz nl nv pinit pst o).
    unfold psolve. set (E0 := rsd_norm O _). cbn [wbind wlift].
    destruct (saturate O E0 _ _) as [it|e|u]; [|cbn; lia|cbn; lia].
    pose proof (pprox_prox O o pb el E0 (Z.to_nat (p_max_prox o)) it (pstart pb x)
        (pones O pb nz nl nv) stale (pb_pnr pb (pstart pb x)) w 0%Z 0%Z) as H.
    unfold wlog. 
    destruct (pprox O o pb el E0 (Z.to_nat (p_max_prox o)) it (pstart pb x) (pones O pb nz nl nv) stale
                 (pb_pnr pb (pstart pb x)) w 0%Z 0%Z) as [[l t] res].
    unfold tr in H; cbn [fst snd] in H. destruct res as [[out xx]|e|u]; cbn; cbn in H; lia.
  Qed.
End Prints.
