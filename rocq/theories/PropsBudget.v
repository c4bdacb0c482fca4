(* C72: limits, tolerances and the infeasibility check decide only where a run stops.  With options that
   stop later, Solve passes through everything it did before. *)
From Coq Require Import Reals Lra.
From Verif Require Export PropsSim.
Local Open Scope nat_scope.

(* ---------- specification ---------- *)
(* what passes the second test passes the first *)
Definition tighter {T} (O : Ops T) (t t' : T) : Prop := forall E, o_leb O E t' = true -> o_leb O E t = true.
(* o' stops no earlier than o: the same method, limits at least as large, a stall tolerance at least as
   strict, and no infeasibility test that o does not make.  Display level, gamma, sigma_max and sigma_min
   may be anything. *)
Record stops_later {T} (O : Ops T) (o o' : params T) : Prop := {
  sl_sigma0 : p_sigma0 o = p_sigma0 o'; sl_alpha : p_alpha o = p_alpha o'; sl_beta : p_beta o = p_beta o';
  sl_eta : p_eta o = p_eta o'; sl_delta : p_delta o = p_delta o';
  sl_itmax : p_inner_tol_max o = p_inner_tol_max o'; sl_itmin : p_inner_tol_min o = p_inner_tol_min o';
  sl_inner : p_max_inner o = p_max_inner o'; sl_ls : p_max_ls o = p_max_ls o';
  sl_nonmonotone : p_nonmonotone o = p_nonmonotone o';
  sl_newton : (p_max_newton o <= p_max_newton o')%Z; sl_prox : (p_max_prox o <= p_max_prox o')%Z;
  sl_stall : tighter O (p_stall_tol o) (p_stall_tol o');
  sl_check : p_check_feas o' = true -> p_check_feas o = true /\ p_infeas_tol o = p_infeas_tol o' }.

(* The first run stopped, for a reason its own options give, at a place the second run went through. *)
Record stopped_earlier {T} (o o' : params T) (tol tol' : T) (r r' : solve_result T) : Prop := {
  se_path : exists seen more, sr_trace r' = seen ++ more /\
    (sr_trace r = seen \/ exists y, sr_trace r = seen ++ [GProject y]);
  se_out : exists out, sr_out r = Ok out /\
    (so_eflag out = MAXITERATIONS /\ (p_max_newton o <= so_newton out \/ p_max_prox o <= so_prox out)%Z \/
     so_eflag out = SUCCESS /\ ~ (tol = tol' /\ p_stall_tol o = p_stall_tol o') \/
     (so_eflag out = PRIMAL_INFEASIBLE \/ so_eflag out = DUAL_INFEASIBLE \/ so_eflag out = PRIMAL_DUAL_INFEASIBLE) /\
       p_check_feas o = true /\ p_check_feas o' = false) /\
    forall out', sr_out r' = Ok out' -> (so_newton out <= so_newton out' /\ so_prox out <= so_prox out')%Z }.

(* the problem data as bound by Solve *)
Definition bound_dense {T} (O : Ops T) (qp : dense_qp T) (d : dense_data T) : Prop :=
  DenseData_ctor O (Some (q_H qp)) (Some (q_f qp)) (Some (q_G qp)) (Some (q_h qp)) (Some (q_A qp)) (Some (q_b qp)) = Ok d.
(* o' differs from o by larger limits only (or in display, gamma, sigma_max, sigma_min) *)
Record more_iterations {T} (O : Ops T) (o o' : params T) : Prop := {
  mi_later : stops_later O o o'; mi_abs : p_abs_tol o = p_abs_tol o'; mi_rel : p_rel_tol o = p_rel_tol o';
  mi_stall : p_stall_tol o = p_stall_tol o'; mi_check : p_check_feas o = p_check_feas o' }.
(* r: with the limits of o; r': with larger ones *)
Definition limits_only {T} (o : params T) (r r' : solve_result T) : Prop :=
  (forall out, sr_out r = Ok out -> so_eflag out <> MAXITERATIONS -> same_answer r r') /\
  (forall e, sr_out r = Throw e -> same_answer r r') /\
  (forall out', sr_out r' = Ok out' -> (so_newton out' < p_max_newton o)%Z -> (so_prox out' < p_max_prox o)%Z -> same_answer r r') /\
  (forall out out', sr_out r = Ok out -> sr_out r' = Ok out' -> (so_newton out <= so_newton out' /\ so_prox out <= so_prox out')%Z).

(* ---------- proofs ---------- *)
Lemma limits_from {T} (o o' : params T) (r r' : solve_result T) : p_stall_tol o = p_stall_tol o' -> p_check_feas o = p_check_feas o' ->
  same_answer r r' \/ (exists tol, stopped_earlier o o' tol tol r r') -> limits_only o r r'.
Proof.
  intros E3 E4 [H|(tol & [_ (out & EO & [(F & L)|[(F & N)|(_ & C1 & C2)]] & M)])].
  - split; [intros; exact H|]. split; [intros; exact H|]. split; [intros; exact H|].
    intros out out' E E'. destruct H as (H & _). assert (out = out') by congruence. subst out'. lia.
  - split; [intros out0 E; rewrite EO in E; injection E as <-; contradiction|].
    split; [intros e E; congruence|]. split.
    + intros out' E N P. specialize (M out' E). lia.
    + intros out0 out' E E'. rewrite EO in E. injection E as <-. exact (M out' E').
  - exfalso. apply N. auto.
  - congruence.
Qed.
Lemma wbind_ok {T A B} (m : W T A) (f : A -> W T B) b : snd (wbind m f) = Ok b ->
  exists a, snd m = Ok a /\ snd (f a) = Ok b.
Proof.
  destruct m as [[l t] r]. cbn [wbind snd]. destruct r as [a|e|u]; cbn [snd]; try discriminate.
  destruct (f a) as [[l2 t2] r2] eqn:E. cbn [snd]. intros ->. exists a. rewrite E. auto.
Qed.

Lemma wbind_trace {T A B} (m : W T A) (f : A -> W T B) : exists more, snd (fst (wbind m f)) = snd (fst m) ++ more.
Proof.
  destruct m as [[l t] r]. cbn [wbind fst snd]. destruct r as [a|e|u]; [|exists []; symmetry; apply app_nil_r..].
  destruct (f a) as [[l2 t2] r2]. exists t2. reflexivity.
Qed.

Section Mono.
  Context {T : Type} (O : Ops T) (o : params T) (pb : prob T).
  Lemma pinner_mono fuel : forall i t Eo tol Ek x xb dx ri rk n m a,
    snd (pinner O o pb fuel i t Eo tol Ek x xb dx ri rk n m) = Ok a -> (n <= snd a)%Z.
  Proof.
    induction fuel as [|fuel IH]; intros i t Eo tol Ek x xb dx ri rk n m a; cbn [pinner].
    - intros [= <-]. cbn. lia.
    - intro H. apply wbind_ok in H. destruct H as (_ & _ & H). destruct (_ || _).
      + apply wbind_ok in H. destruct H as (_ & _ & H). injection H as <-. cbn. lia.
      + apply wbind_ok in H. destruct H as (_ & _ & H). destruct (_ <=? _)%Z.
        * injection H as <-. cbn. lia.
        * apply wbind_ok in H. destruct H as ([[[[t1 x1] d1] r1] m1] & _ & H). apply IH in H. lia.
  Qed.
  Lemma psub_mono tol Ek xk dx ri rk n a : snd (psub O o pb tol Ek xk dx ri rk n) = Ok a -> (n <= snd a)%Z.
  Proof.
    unfold psub. intro H. apply wbind_ok in H. destruct H as ([[[[[E1 x1] d1] r1] k1] n1] & H1 & H).
    apply pinner_mono in H1. apply wbind_ok in H. destruct H as (_ & _ & H). injection H as <-. exact H1.
  Qed.
  Lemma poutput_ok e el E0 n p rk out : snd (poutput O o pb e el E0 n p rk) = Ok out ->
    so_newton out = n /\ so_prox out = p /\ so_eflag out = e.
  Proof. unfold poutput. intro H. apply wbind_ok in H. destruct H as (_ & _ & H). injection H as <-. auto. Qed.
  Lemma pprox_mono el E0 fuel : forall itol xk dx ri rk w n p out y,
    snd (pprox O o pb el E0 fuel itol xk dx ri rk w n p) = Ok (out, y) -> (n <= so_newton out /\ p <= so_prox out)%Z.
  Proof.
    assert (OUT : forall e n p rk (z y : var T) out, snd (wbind (poutput O o pb e el E0 n p rk) (fun a => wret (a, z))) = Ok (out, y) ->
      so_newton out = n /\ so_prox out = p).
    { intros e n p rk z y out H. apply wbind_ok in H. destruct H as (a & H1 & H). injection H as <- <-.
      apply poutput_ok in H1. tauto. }
    induction fuel as [|fuel IH]; intros itol xk dx ri rk w n p out y; cbn [pprox].
    - intro H. apply OUT in H. lia.
    - destruct (_ || _).
      + intro H. apply wbind_ok in H. destruct H as (_ & _ & H). apply OUT in H. lia.
      + intro H. apply wbind_ok in H. destruct H as (_ & _ & H). apply wbind_ok in H. destruct H as (it & _ & H).
        apply wbind_ok in H. destruct H as (_ & _ & H). apply wbind_ok in H.
        destruct H as ([[[[[E1 x1] d1] r1] k1] n1] & H1 & H). apply psub_mono in H1. cbn [snd] in H1.
        destruct (_ <=? _)%Z.
        * apply OUT in H. lia.
        * apply wbind_ok in H. destruct H as (_ & _ & H). 
          destruct (if p_check_feas o then _ else _) as [w' fs]. destruct (flag_of fs);
            try (apply OUT in H; lia). apply IH in H. lia.
  Qed.
End Mono.

(* one run is the beginning of the other *)
Definition wbegins {T A B} (Q : A -> Prop) (R : A -> B -> Prop) (m1 : W T A) (m2 : W T B) : Prop :=
  (exists more, snd (fst m2) = snd (fst m1) ++ more) /\
  exists a, snd m1 = Ok a /\ Q a /\ forall b, snd m2 = Ok b -> R a b.
Lemma wbegins_bind {T A B A' B'} (R : A -> B -> Prop) Q S (m1 : W T A) (m2 : W T B) (f : A -> W T A') (g : B -> W T B') :
  wsim R m1 m2 -> (forall a b, R a b -> snd m1 = Ok a -> snd m2 = Ok b -> wbegins Q S (f a) (g b)) ->
  (exists a, snd m1 = Ok a) -> wbegins Q S (wbind m1 f) (wbind m2 g).
Proof.
  destruct m1 as [[l1 t1] r1], m2 as [[l2 t2] r2]. unfold wsim. cbn [fst snd].
  intros [<- R0] H (a & ->). destruct r2 as [b|e|u]; cbn in R0; try contradiction.
  specialize (H a b R0 eq_refl eq_refl). cbn [wbind].
  destruct (f a) as [[la ta] ra], (g b) as [[lb tb] rb]. unfold wbegins in *. cbn [fst snd] in *.
  destruct H as ((more & ->) & H). split; [|exact H]. exists more. apply app_assoc.
Qed.

Section Sim.
  Context {T : Type} (O : Ops T) (o o' : params T) (pb1 pb2 : prob T).
  Context (vok : var T -> Prop) (wrel : ws T -> ws T -> Prop).
  Hypothesis SL : stops_later O o o'.
  Hypothesis TOL : tighter O (pb_combo pb1) (pb_combo pb2).
  Record prob_same : Prop := {
    sm_pnr : forall x, vok x -> pb_pnr pb1 x = pb_pnr pb2 x;
    sm_inner : forall x xb, vok x -> vok xb -> pb_inner pb1 x xb = pb_inner pb2 x xb;
    sm_newton : forall x xb, vok x -> vok xb ->
      pb_newton pb1 x xb (rsd_neg O (pb_inner pb2 x xb)) = pb_newton pb2 x xb (rsd_neg O (pb_inner pb2 x xb));
    sm_newton_ok : forall x xb dx, vok x -> vok xb ->
      pb_newton pb2 x xb (rsd_neg O (pb_inner pb2 x xb)) = Ok dx -> vok dx;
    sm_axpy : forall a x y, vok x -> vok y -> pb_axpy pb1 a x y = pb_axpy pb2 a x y;
    sm_axpy_ok : forall a x y, vok x -> vok y -> vok (pb_axpy pb2 a x y);
    sm_proj : forall x, vok x -> vok (proj_duals O x);
    sm_feas : p_check_feas o' = true -> forall w1 w2 x, wrel w1 w2 -> vok x ->
      snd (pb_feas pb1 w1 x) = snd (pb_feas pb2 w2 x) /\
      wrel (fst (pb_feas pb1 w1 x)) (fst (pb_feas pb2 w2 x)) }.
  Hypothesis HS : prob_same.

  Lemma pls_same fuel : forall j t m0 cm x xb dx ri1 ri2, vok x -> vok xb -> vok dx ->
    wsim (fun a b => fst a = fst b) (pls O o pb1 fuel j t m0 cm x xb dx ri1)
                                    (pls O o' pb2 fuel j t m0 cm x xb dx ri2).
  Proof.
    induction fuel as [|fuel IH]; intros j t m0 cm x xb dx ri1 ri2 Hx Hb Hd; cbn [pls].
    - apply wsim_ret. reflexivity.
    - rewrite (sm_axpy HS) by assumption.
      assert (Hp : vok (pb_axpy pb2 t dx x)) by (apply (sm_axpy_ok HS); assumption).
      rewrite (sm_inner HS), (sl_eta _ _ _ SL), (sl_beta _ _ _ SL) by assumption.
      eapply wsim_bind; [apply wsim_ghost|]. intros _ _ _.
      destruct (o_leb O _ _).
      + apply wsim_ret. reflexivity.
      + apply IH; assumption.
  Qed.
  Lemma pstep_same x xb m : vok x -> vok xb ->
    wsim (st_rel vok) (pstep O o pb1 x xb (pb_inner pb2 x xb) m) (pstep O o' pb2 x xb (pb_inner pb2 x xb) m).
  Proof.
    intros Hx Hb. unfold pstep. rewrite (sm_newton HS) by assumption.
    eapply wsim_bind with (R := fun a b => a = b /\ vok a).
    { apply wsim_lift. destruct (pb_newton pb2 x xb _) as [dx|e|u] eqn:EN; cbn; auto.
      split; [reflexivity|]. exact (sm_newton_ok HS x xb dx Hx Hb EN). }
    intros dx dx2 [<- Hd].
    eapply wsim_bind; [apply wsim_ghost|]. intros _ _ _.
    rewrite (sl_nonmonotone _ _ _ SL), (sl_ls _ _ _ SL).
    eapply wsim_bind; [apply pls_same; assumption|].
    intros [[[t j] acc] ri1] [[[t' j'] acc'] ri2] E. cbn in E. injection E as <- <- <-.
    rewrite (sm_axpy HS) by assumption.
    eapply wsim_bind; [apply wsim_ghost|]. intros _ _ _.
    apply wsim_ret. unfold st_rel. auto 10 using (sm_axpy_ok HS).
  Qed.

  (* the first run is cut by its Newton limit *)
  Definition cut (m1 m2 : W T (T * var T * var T * rsd T * rsd T * Z)) : Prop :=
    wbegins (fun a => (p_max_newton o <= snd a)%Z) (fun a b => (snd a <= snd b)%Z) m1 m2.
  Lemma pinner_same fuel : forall i t Eo tol Ek x xb dx ri1 ri2 rk n m, vok x -> vok xb -> vok dx ->
    wsim (in_rel vok) (pinner O o pb1 fuel i t Eo tol Ek x xb dx ri1 rk n m)
                      (pinner O o' pb2 fuel i t Eo tol Ek x xb dx ri2 rk n m) \/
    cut (pinner O o pb1 fuel i t Eo tol Ek x xb dx ri1 rk n m) (pinner O o' pb2 fuel i t Eo tol Ek x xb dx ri2 rk n m).
  Proof.
    induction fuel as [|fuel IH]; intros i t Eo tol Ek x xb dx ri1 ri2 rk n m Hx Hb Hd.
    - left. apply wsim_ret. unfold in_rel. auto 10.
    - pose proof (pinner_mono O o' pb2 (S fuel) i t Eo tol Ek x xb dx ri2 rk n m) as MONO. cbn [pinner] in *.
      rewrite (sm_inner HS), (sm_pnr HS), (sl_itmin _ _ _ SL) by assumption.
      destruct ((o_leb O (rsd_norm O (pb_inner pb2 x xb)) tol && o_ltb O (rsd_norm O (pb_pnr pb2 x)) Ek)
                || o_leb O (rsd_norm O (pb_inner pb2 x xb)) (p_inner_tol_min o')) eqn:TEST.
      + left. eapply wsim_bind; [apply wsim_ghost|]. intros _ _ _.
        eapply wsim_bind; [apply wsim_log|]. intros _ _ _. apply wsim_ret. unfold in_rel. auto 10.
      + destruct (p_max_newton o <=? n)%Z eqn:L1.
        * right. apply Z.leb_le in L1. split.
          -- match goal with |- exists more, snd (fst (wbind _ ?F)) = _ => destruct (F tt) as [[l2 t2] r2] end.
             eexists. cbn [wbind wghost wlog wret fst snd app]. reflexivity.
          -- eexists. split; [cbn [wbind wghost wlog wret fst snd app]; reflexivity|]. split; [exact L1|].
             intros b Hb2. apply MONO in Hb2. exact Hb2.
        * replace (p_max_newton o' <=? n)%Z with false
            by (symmetry; apply Z.leb_gt; apply Z.leb_gt in L1; pose proof (sl_newton _ _ _ SL); lia).
          pose proof (pstep_same x xb m Hx Hb) as PS.
          destruct (pstep O o pb1 x xb (pb_inner pb2 x xb) m) as [[l1 t1] s1],
                   (pstep O o' pb2 x xb (pb_inner pb2 x xb) m) as [[l2 t2] s2].
          destruct PS as [E PS]. cbn [fst snd] in E, PS. subst t2.
          destruct s1 as [[[[[ta xa] da] ra] ma]|e|u], s2 as [[[[[tb xb'] db] rb] mb]|e'|u']; cbn in PS; try contradiction.
          -- destruct PS as (<- & <- & <- & <- & V1 & V2).
             destruct (IH (i + 1)%Z ta (rsd_norm O (pb_pnr pb2 x)) tol Ek xa xb da ra rb (pb_pnr pb2 x) (n + 1)%Z ma V1 Hb V2) as [W1|W1].
             ++ left. destruct W1 as [WT WR]. cbn [wbind wghost wlog].
                destruct (pinner O o pb1 fuel _ _ _ _ _ _ _ _ _ _ _ _) as [[lx tx] rx],
                         (pinner O o' pb2 fuel _ _ _ _ _ _ _ _ _ _ _ _) as [[ly ty] ry].
                cbn [fst snd] in *. split; [cbn [fst snd]; rewrite WT; reflexivity|exact WR].
             ++ right. destruct W1 as [[more WT] WR]. cbn [wbind wghost wlog].
                destruct (pinner O o pb1 fuel _ _ _ _ _ _ _ _ _ _ _ _) as [[lx tx] rx],
                         (pinner O o' pb2 fuel _ _ _ _ _ _ _ _ _ _ _ _) as [[ly ty] ry].
                cbn [fst snd] in *. split; [exists more; cbn [fst snd]; rewrite WT; cbn [app]; rewrite <- !app_assoc; reflexivity|exact WR].
          -- left. subst e'. cbn [wbind wghost wlog]. split; reflexivity.
          -- left. subst u'. cbn [wbind wghost wlog]. split; reflexivity.
  Qed.
  (* ... after which the point is projected *)
  Definition cut_projected (m1 m2 : W T (T * var T * var T * rsd T * rsd T * Z)) : Prop :=
    (exists seen y more, snd (fst m1) = seen ++ [GProject y] /\ snd (fst m2) = seen ++ more) /\
    exists a, snd m1 = Ok a /\ (p_max_newton o <= snd a)%Z /\ forall b, snd m2 = Ok b -> (snd a <= snd b)%Z.
  Lemma psub_same tol Ek xk dx ri1 ri2 rk n : vok xk -> vok dx ->
    wsim (in_rel vok) (psub O o pb1 tol Ek xk dx ri1 rk n) (psub O o' pb2 tol Ek xk dx ri2 rk n) \/
    cut_projected (psub O o pb1 tol Ek xk dx ri1 rk n) (psub O o' pb2 tol Ek xk dx ri2 rk n).
  Proof.
    intros Hx Hd. unfold psub. rewrite (sl_inner _ _ _ SL).
    destruct (pinner_same (Z.to_nat (p_max_inner o')) 0%Z (o_one O) (o_zero O) tol Ek xk xk dx ri1 ri2 rk n
                (repeat (o_zero O) 5) Hx Hx Hd) as [W1|W1].
    - left. eapply wsim_bind; [exact W1|].
      intros [[[[[E1 x1] d1] r1] k1] n1] [[[[[E2 x2] d2] r2] k2] n2] (<- & <- & <- & <- & <- & H1 & H2).
      eapply wsim_bind; [apply wsim_ghost|]. intros _ _ _.
      apply wsim_ret. unfold in_rel. auto 10 using (sm_proj HS).
    - right. destruct W1 as [[more WT] (a & E & L & WR)].
      destruct (pinner O o pb1 _ _ _ _ _ _ _ _ _ _ _ _ _) as [[lx tx] rx],
               (pinner O o' pb2 _ _ _ _ _ _ _ _ _ _ _ _ _) as [[ly ty] ry].
      cbn [fst snd] in *. subst rx ty. destruct a as [[[[[E1 x1] d1] r1] k1] n1]. split.
      + destruct ry as [[[[[[E2 x2] d2] r2] k2] n2]|e|u]; cbn [wbind wghost wret fst snd app];
          do 3 eexists; (split; [reflexivity|]); rewrite <- ?app_assoc; reflexivity.
      + eexists. split; [reflexivity|]. split; [exact L|]. intros b Hb. apply wbind_ok in Hb.
        destruct Hb as ([[[[[E2 x2] d2] r2] k2] n2] & Hb & E). cbn [snd] in Hb.
        specialize (WR _ Hb). apply wbind_ok in E. destruct E as (_ & _ & E). injection E as <-. exact WR.
  Qed.

  Definition reason (out : solver_out T) : Prop :=
    so_eflag out = MAXITERATIONS /\ (p_max_newton o <= so_newton out \/ p_max_prox o <= so_prox out)%Z \/
    so_eflag out = SUCCESS /\ ~ (pb_combo pb1 = pb_combo pb2 /\ p_stall_tol o = p_stall_tol o') \/
    (so_eflag out = PRIMAL_INFEASIBLE \/ so_eflag out = DUAL_INFEASIBLE \/ so_eflag out = PRIMAL_DUAL_INFEASIBLE) /\
      p_check_feas o = true /\ p_check_feas o' = false.
  Definition early (m1 m2 : W T (solver_out T * var T)) : Prop :=
    (exists seen more, snd (fst m2) = seen ++ more /\
      (snd (fst m1) = seen \/ exists y, snd (fst m1) = seen ++ [GProject y])) /\
    exists out y, snd m1 = Ok (out, y) /\ reason out /\
      forall out' y', snd m2 = Ok (out', y') -> (so_newton out <= so_newton out' /\ so_prox out <= so_prox out')%Z.
  Lemma early_bind {A B} (R : A -> B -> Prop) (m1 : W T A) (m2 : W T B) f g :
    wsim R m1 m2 -> (forall a b, R a b -> wsim eq (f a) (g b) \/ early (f a) (g b)) ->
    wsim eq (wbind m1 f) (wbind m2 g) \/ early (wbind m1 f) (wbind m2 g).
  Proof.
    destruct m1 as [[l1 t1] r1], m2 as [[l2 t2] r2]. unfold wsim at 1. cbn [fst snd].
    intros [<- R0] H. destruct r1 as [a|e|u], r2 as [b|e'|u']; cbn in R0; try contradiction.
    - specialize (H a b R0). cbn [wbind]. destruct (f a) as [[la ta] ra], (g b) as [[lb tb] rb].
      destruct H as [[E S]|[(seen & more & E1 & E2) S]]; cbn [fst snd] in *.
      + left. split; cbn [fst snd]; [rewrite E; reflexivity|exact S].
      + right. split; cbn [fst snd]; [|exact S]. exists (t1 ++ seen), more. rewrite E1. split; [apply app_assoc|].
        destruct E2 as [->|(y & ->)]; [left; reflexivity|right; exists y; apply app_assoc].
    - left. subst e'. cbn [wbind]. split; reflexivity.
    - left. subst u'. cbn [wbind]. split; reflexivity.
  Qed.
  Lemma poutput_same e el E0 n p rk : wsim eq (poutput O o pb1 e el E0 n p rk) (poutput O o' pb2 e el E0 n p rk).
  Proof. unfold poutput. eapply wsim_bind; [apply wsim_log|]. intros _ _ _. apply wsim_ret. reflexivity. Qed.
  (* a run that stops at once is the beginning of every run *)
  Lemma stop_early e el E0 n p rk y (m2 : W T (solver_out T * var T)) :
    (forall out', so_eflag out' = e -> so_newton out' = n -> so_prox out' = p -> reason out') ->
    (forall out' y', snd m2 = Ok (out', y') -> (n <= so_newton out' /\ p <= so_prox out')%Z) ->
    early (wbind (poutput O o pb1 e el E0 n p rk) (fun out => wret (out, y))) m2.
  Proof.
    intros HR HM. unfold poutput. cbn [wbind wlog wret fst snd app]. split; cbn [fst snd].
    - exists [], (snd (fst m2)). split; [reflexivity|left; reflexivity].
    - do 2 eexists. split; [reflexivity|]. split; [apply HR; reflexivity|]. cbn [so_newton so_prox]. exact HM.
  Qed.

  Lemma pprox_same el E0 fuel : forall fuel' itol xk dx ri1 ri2 rk w1 w2 n p,
    vok xk -> vok dx -> (p_check_feas o' = true -> wrel w1 w2) -> fuel <= fuel' -> (p_max_prox o <= p + Z.of_nat fuel)%Z ->
    wsim eq (pprox O o pb1 el E0 fuel itol xk dx ri1 rk w1 n p) (pprox O o' pb2 el E0 fuel' itol xk dx ri2 rk w2 n p) \/
    early (pprox O o pb1 el E0 fuel itol xk dx ri1 rk w1 n p) (pprox O o' pb2 el E0 fuel' itol xk dx ri2 rk w2 n p).
  Proof.
    induction fuel as [|fuel IH]; intros fuel' itol xk dx ri1 ri2 rk w1 w2 n p Hx Hd Hw HF HP.
    - right. cbn [pprox]. apply stop_early.
      + intros out E1 E2 E3. left. split; [exact E1|]. right. rewrite E3. lia.
      + intros out' y'. apply pprox_mono.
    - destruct fuel' as [|fuel']; [lia|].
      pose proof (pprox_mono O o' pb2 el E0 (S fuel') itol xk dx ri2 rk w2 n p) as MONO. cbn [pprox] in MONO |- *.
      rewrite (sm_pnr HS) by assumption.
      destruct (o_leb O (rsd_norm O (pb_pnr pb2 xk)) (pb_combo pb1) || o_leb O (var_norm O dx) (p_stall_tol o)) eqn:T1.
      + destruct (o_leb O (rsd_norm O (pb_pnr pb2 xk)) (pb_combo pb2) || o_leb O (var_norm O dx) (p_stall_tol o')) eqn:T2.
        * left. eapply wsim_bind; [apply wsim_log|]. intros _ _ _.
          eapply wsim_bind; [apply poutput_same|]. intros a b <-. apply wsim_ret. reflexivity.
        * right. match goal with |- early (wbind (wlog ?l) ?f) ?m2 => assert (E : early (f tt) m2) end.
          { apply stop_early.
            - intros out E1 E2 E3. right; left. split; [exact E1|]. intros (C1 & C2). rewrite C1, C2 in T1. congruence.
            - exact MONO. }
          destruct E as [E1 E2]. unfold early. cbn [wbind wlog fst snd] in *.
          match goal with |- context[wbind ?a ?b] => destruct (wbind a b) as [[la ta] ra] end. cbn [fst snd] in *. split; [exact E1|exact E2].
      + assert (T2 : o_leb O (rsd_norm O (pb_pnr pb2 xk)) (pb_combo pb2) || o_leb O (var_norm O dx) (p_stall_tol o') = false).
        { apply orb_false_iff in T1. destruct T1 as [A B]. apply orb_false_iff. split.
          - destruct (o_leb O _ (pb_combo pb2)) eqn:E; [|reflexivity]. apply TOL in E. congruence.
          - destruct (o_leb O _ (p_stall_tol o')) eqn:E; [|reflexivity]. apply (sl_stall _ _ _ SL) in E. congruence. }
        rewrite T2 in MONO |- *. rewrite (sl_delta _ _ _ SL), (sl_itmin _ _ _ SL).
        eapply early_bind; [apply wsim_log|]. intros _ _ _.
        eapply early_bind; [apply wsim_lift; apply rsim_refl|]. intros it _ <-.
        eapply early_bind; [apply wsim_ghost|]. intros _ _ _.
        destruct (psub_same it (rsd_norm O (pb_pnr pb2 xk)) xk dx ri1 ri2 (pb_pnr pb2 xk) n Hx Hd) as [PS|PS].
        * eapply early_bind; [exact PS|].
          intros [[[[[E1 x1] d1] r1] k1] n1] [[[[[E2 x2] d2] r2] k2] n2] (<- & <- & <- & <- & <- & V1 & V2).
          destruct (p_max_newton o <=? n1)%Z eqn:L1.
          -- rewrite (sm_pnr HS) by (destruct (o_ltb O _ _); assumption).
             destruct (p_max_newton o' <=? n1)%Z eqn:L2.
             ++ left. eapply wsim_bind; [apply poutput_same|]. intros a b <-. apply wsim_ret. reflexivity.
             ++ right. apply stop_early.
                ** intros out E E' _. left. split; [exact E|]. left. rewrite E'. apply Z.leb_le; exact L1.
                ** intros out' y' H. apply wbind_ok in H. destruct H as (_ & _ & H).
                   destruct (if p_check_feas o' then _ else _) as [w' fs].
                   destruct (flag_of fs); try (apply wbind_ok in H; destruct H as (a & H1 & H); apply poutput_ok in H1; injection H as <- <-; lia).
                   apply pprox_mono in H. lia.
          -- replace (p_max_newton o' <=? n1)%Z with false
               by (symmetry; apply Z.leb_gt; apply Z.leb_gt in L1; pose proof (sl_newton _ _ _ SL); lia).
             rewrite (sm_axpy HS) by assumption.
             assert (Hd2 : vok (pb_axpy pb2 (o_mone O) xk x1)) by (apply (sm_axpy_ok HS); assumption).
             eapply early_bind; [apply wsim_ghost|]. intros _ _ _.
             destruct (p_check_feas o') eqn:CF'.
             ++ destruct (sl_check _ _ _ SL CF') as (CF & _). rewrite CF.
                destruct (sm_feas HS CF' w1 w2 _ (Hw eq_refl) Hd2) as (F1 & F2).
                destruct (pb_feas pb1 w1 _) as [w1' f1], (pb_feas pb2 w2 _) as [w2' f2].
                cbn [fst snd] in F1, F2. subst f2.
                destruct f1; cbn [flag_of].
                { apply IH; try assumption; [auto|lia|lia]. }
                all: left; eapply wsim_bind; [apply poutput_same|]; intros a b <-; apply wsim_ret; reflexivity.
             ++ cbn [flag_of].
                assert (GO : forall w', wsim eq (pprox O o pb1 el E0 fuel it x1 (pb_axpy pb2 (o_mone O) xk x1) r1 k1 w' n1 (p + 1)%Z)
                      (pprox O o' pb2 el E0 fuel' it x1 (pb_axpy pb2 (o_mone O) xk x1) r2 k1 w2 n1 (p + 1)%Z) \/
                  early (pprox O o pb1 el E0 fuel it x1 (pb_axpy pb2 (o_mone O) xk x1) r1 k1 w' n1 (p + 1)%Z)
                      (pprox O o' pb2 el E0 fuel' it x1 (pb_axpy pb2 (o_mone O) xk x1) r2 k1 w2 n1 (p + 1)%Z)).
                { intro w'. apply IH; try assumption; [discriminate|lia|lia]. }
                destruct (p_check_feas o) eqn:CF; [|exact (GO w1)].
                destruct (pb_feas pb1 w1 _) as [w1' f1]. destruct f1; cbn [flag_of]; [exact (GO w1')|right..];
                  (apply stop_early; [|intros out' y' H; apply pprox_mono in H; lia]);
                  intros out E _ _; right; right; (split; [rewrite E; tauto|split; [exact CF|exact CF']]).
        * right. destruct PS as [(seen & y & more & P1 & P2) (a & P3 & P4 & P5)].
          destruct (psub O o pb1 _ _ _ _ _ _ _) as [[lx tx] rx], (psub O o' pb2 it _ xk dx ri2 _ n) as [[ly ty] ry].
          cbn [fst snd] in P1, P2, P3, P5. subst rx tx ty. destruct a as [[[[[E1 x1] d1] r1] k1] n1]. cbn [snd] in P4, P5.
          split.
          -- match goal with |- context[snd (fst (wbind (ly, seen ++ more, ry) ?g))] => destruct (wbind_trace (ly, seen ++ more, ry) g) as (tl & ET) end.
             exists seen, (more ++ tl). split; [rewrite ET; cbn [fst snd]; symmetry; apply app_assoc|].
             right. exists y. cbn [wbind]. replace (p_max_newton o <=? n1)%Z with true by (symmetry; apply Z.leb_le; exact P4).
             unfold poutput. cbn [wbind wlog wret fst snd]. rewrite !app_nil_r. reflexivity.
          -- cbn [wbind]. replace (p_max_newton o <=? n1)%Z with true by (symmetry; apply Z.leb_le; exact P4).
             do 2 eexists. split; [unfold poutput; cbn [wbind wlog wret fst snd]; reflexivity|].
             split; [left; cbn [so_eflag so_newton]; auto|]. cbn [so_newton so_prox].
             intros out' y' H. change (snd (wbind (ly, seen ++ more, ry) (fun r => let '(Eo, xi, dx0, ri, rk0, newton) := r in
                 if (p_max_newton o' <=? newton)%Z then
                   (wbind (poutput O o' pb2 MAXITERATIONS el E0 newton p (pb_pnr pb2 (if o_ltb O Eo (rsd_norm O (pb_pnr pb2 xk)) then xi else xk)))
                     (fun out => wret (out, if o_ltb O Eo (rsd_norm O (pb_pnr pb2 xk)) then xi else xk)))
                 else wbind (wghost (GProx (pb_axpy pb2 (o_mone O) xk xi))) (fun _ =>
                   let '(w, fs) := if p_check_feas o' then pb_feas pb2 w2 (pb_axpy pb2 (o_mone O) xk xi) else (w2, FS_FEASIBLE) in
                   match flag_of fs with
                   | SUCCESS => pprox O o' pb2 el E0 fuel' it xi (pb_axpy pb2 (o_mone O) xk xi) ri rk0 w newton (p + 1)%Z
                   | ef => wbind (poutput O o' pb2 ef el E0 newton p rk0) (fun out => wret (out, pb_axpy pb2 (o_mone O) xk xi))
                   end))) = Ok (out', y')) in H.
             apply wbind_ok in H. destruct H as ([[[[[E2 x2] d2] r2] k2] n2] & HR & H'). cbn [snd] in HR. subst ry.
             specialize (P5 _ eq_refl). cbn [snd] in P5.
             destruct (p_max_newton o' <=? n2)%Z.
             ++ apply wbind_ok in H'. destruct H' as (a & H1 & H2). apply poutput_ok in H1. injection H2 as <- <-. lia.
             ++ apply wbind_ok in H'. destruct H' as (_ & _ & H).
                destruct (if p_check_feas o' then _ else _) as [w' fs].
                destruct (flag_of fs); try (apply wbind_ok in H; destruct H as (a & H1 & H); apply poutput_ok in H1; injection H as <- <-; lia).
                apply pprox_mono in H. lia.
  Qed.

  Lemma psolve_same nz nl nv el st1 st2 w1 w2 (c1 c2 : var T) : (0 <= p_max_prox o)%Z ->
    v_z c1 = v_z c2 -> v_l c1 = v_l c2 -> v_v c1 = v_v c2 ->
    pb_margin pb1 (v_z c2) = pb_margin pb2 (v_z c2) ->
    pb_margin pb1 (vconst nz (o_one O)) = pb_margin pb2 (vconst nz (o_one O)) ->
    vok (pstart pb2 c2) -> vok (pones O pb2 nz nl nv) -> (p_check_feas o' = true -> wrel w1 w2) ->
    wsim eq (psolve O o pb1 nz nl nv el st1 w1 c1) (psolve O o' pb2 nz nl nv el st2 w2 c2) \/
    early (psolve O o pb1 nz nl nv el st1 w1 c1) (psolve O o' pb2 nz nl nv el st2 w2 c2).
  Proof.
    intros HP Ez El Ev M1 M2 H1 H2 Hw. unfold psolve.
    assert (P1 : pstart pb1 c1 = pstart pb2 c2) by (unfold pstart; rewrite Ez, El, Ev, M1; reflexivity).
    assert (P2 : pones O pb1 nz nl nv = pones O pb2 nz nl nv) by (unfold pones; rewrite M2; reflexivity).
    rewrite P1, P2, (sm_pnr HS), (sl_itmin _ _ _ SL), (sl_itmax _ _ _ SL) by assumption.
    eapply early_bind; [apply wsim_lift; apply rsim_refl|]. intros it _ <-.
    eapply early_bind; [apply wsim_log|]. intros _ _ _.
    apply pprox_same; try assumption; pose proof (sl_prox _ _ _ SL); lia.
  Qed.
End Sim.

Lemma presult_same {T} (o o' : params T) pb1 pb2 (m1 m2 : W T (solver_out T * var T)) x1 x2 :
  wsim eq m1 m2 \/ early o o' pb1 pb2 m1 m2 ->
  same_answer (presult m1 x1) (presult m2 x2) \/
  stopped_earlier o o' (pb_combo pb1) (pb_combo pb2) (presult m1 x1) (presult m2 x2).
Proof.
  intros [H|[(seen & more & E1 & E2) (out & y & E3 & R & M)]].
  - left. exact (presult_sim m1 m2 x1 x2 H).
  - right. destruct m1 as [[l1 t1] r1], m2 as [[l2 t2] r2]. cbn [fst snd] in *. subst r1 t2.
    constructor.
    + exists seen, more. split; [destruct r2 as [[o2 y2]|e|u]; reflexivity|exact E2].
    + exists out. split; [reflexivity|]. split; [exact R|]. intros out' H.
      destruct r2 as [[o2 y2]|e|u]; cbn [presult sr_out] in H; try discriminate H. injection H as <-. exact (M _ _ eq_refl).
Qed.

Section Calls.
  Context {T : Type} (O : Ops T) (LA : LinAlg T).
  Hypothesis zero_eq : o_eqb O (o_zero O) (o_zero O) = true.

  Lemma desc_later {D} (DI : DataI T D) d nz nl nv o o' x1 x2 el r1 r2 pinit pst st1 st2 w1 w2 (R : ws T -> ws T -> Prop) :
    stops_later O o o' -> tighter O (tolerance O DI d o) (tolerance O DI d o') ->
    call_desc O DI d nz nl nv o x1 el r1 pinit pst st1 w1 ->
    call_desc O DI d nz nl nv o' x2 el r2 pinit pst st2 w2 ->
    (p_check_feas o' = true -> R w1 w2 /\ forall u1 u2 y, ws_ok nz nl nv u1 -> ws_ok nz nl nv u2 -> R u1 u2 -> var_ok nz nl nv y ->
       snd (pfeas O DI d nz nl nv (p_infeas_tol o') u1 y) = snd (pfeas O DI d nz nl nv (p_infeas_tol o') u2 y) /\
       R (fst (pfeas O DI d nz nl nv (p_infeas_tol o') u1 y)) (fst (pfeas O DI d nz nl nv (p_infeas_tol o') u2 y))) ->
    v_z x1 = v_z x2 -> v_l x1 = v_l x2 -> v_v x1 = v_v x2 ->
    same_answer r1 r2 \/ stopped_earlier o o' (tolerance O DI d o) (tolerance O DI d o') r1 r2.
  Proof.
    intros SL TG C1 C2 B Ez El Ev.
    rewrite (cd_run _ _ _ _ _ _ _ _ _ _ _ _ _ _ C1), (cd_run _ _ _ _ _ _ _ _ _ _ _ _ _ _ C2).
    set (pb1 := prob_of O DI d nz nl nv pinit pst o). set (pb2 := prob_of O DI d nz nl nv pinit pst o').
    change (tolerance O DI d o) with (pb_combo pb1) in *. change (tolerance O DI d o') with (pb_combo pb2) in *.
    apply presult_same.
    apply (psolve_same O o o' pb1 pb2 (var_ok nz nl nv)
             (fun u1 u2 => ws_ok nz nl nv u1 /\ ws_ok nz nl nv u2 /\ (p_check_feas o' = true -> R u1 u2)) SL TG); auto.
    - constructor.
      + intros y Hy. unfold pb1, pb2, prob_of; cbn [pb_pnr]. rewrite (sl_alpha _ _ _ SL). reflexivity.
      + intros y yb Hy Hb. unfold pb1, pb2, prob_of; cbn [pb_inner]. rewrite (sl_alpha _ _ _ SL), (sl_sigma0 _ _ _ SL). reflexivity.
      + intros y yb Hy Hb. unfold pb1, pb2, prob_of; cbn [pb_newton pb_inner]. rewrite (sl_alpha _ _ _ SL), (sl_sigma0 _ _ _ SL). reflexivity.
      + intros y yb dx Hy Hb E. exact (cl_newton O DI d nz nl nv _ _ _ _ _ _ _ _ C2 y yb dx Hy Hb E).
      + reflexivity.
      + intros a y z Hy Hz. exact (cl_axpy O DI d nz nl nv _ _ _ _ _ _ _ _ C2 a y z Hy Hz).
      + intros y Hy. apply (cl_proj O nz nl nv y Hy).
      + intros CF u1 u2 y (Hu1 & Hu2 & Hr) Hy. specialize (Hr CF). destruct (B CF) as [_ B'].
        destruct (sl_check _ _ _ SL CF) as (_ & TI). unfold pb1, pb2, prob_of; cbn [pb_feas]. rewrite TI.
        destruct (B' u1 u2 y Hu1 Hu2 Hr Hy) as [F1 F2]. split; [exact F1|].
        split; [exact (cl_feas O DI d nz nl nv _ _ _ _ _ _ _ _ C2 u1 y Hu1 Hy)|].
        split; [exact (cl_feas O DI d nz nl nv _ _ _ _ _ _ _ _ C2 u2 y Hu2 Hy)|]. intros _. exact F2.
    - pose proof (cd_lim _ _ _ _ _ _ _ _ _ _ _ _ _ _ C1) as L. unfold limits_ok in L. lia.
    - exact (cl_start O DI d nz nl nv _ _ _ _ _ _ _ _ C2).
    - exact (cl_ones O DI d nz nl nv _ _ _ _ _ _ _ _ C2).
    - intro CF. split; [exact (cd_ws _ _ _ _ _ _ _ _ _ _ _ _ _ _ C1)|].
      split; [exact (cd_ws _ _ _ _ _ _ _ _ _ _ _ _ _ _ C2)|]. intros _. apply (B CF).
  Qed.

  (* ---------- the properties ---------- *)
  (* Two FBstabMpc objects after any two histories, the options of the second stopping later: the second
     call gives the same answer, or the first one stopped on its way.  In particular an exception of the
     first call occurs in the second as well. *)
  Theorem C72_mpc : forall N nx nu nc s1 s2 qp k1 k2 x1 x2 el,
    mpc_reach O LA N nx nu nc s1 -> mpc_reach O LA N nx nu nc s2 ->
    stops_later O (mps_options s1) (mps_options s2) ->
    (forall d, MpcData_ctor O qp = Ok d ->
       tighter O (tolerance O (mpcDI O) d (mps_options s1)) (tolerance O (mpcDI O) d (mps_options s2))) ->
    same_guess x1 x2 -> seqs_valid qp -> single_columns qp ->
    let r1 := snd (FBstabMpc_Solve O LA s1 qp k1 x1 el) in
    let r2 := snd (FBstabMpc_Solve O LA s2 qp k2 x2 el) in
    same_answer r1 r2 \/
    exists d, MpcData_ctor O qp = Ok d /\
      stopped_earlier (mps_options s1) (mps_options s2) (tolerance O (mpcDI O) d (mps_options s1))
                      (tolerance O (mpcDI O) d (mps_options s2)) r1 r2.
  Proof.
    intros N nx nu nc s1 s2 qp k1 k2 x1 x2 el R1 R2 SL TG (Ez & El & Ev & Ey) Hs Hc. cbv zeta.
    pose proof (mpc_reach_inv _ _ zero_eq _ _ _ _ _ R1) as (A1 & A2 & A3 & A4 & A5 & A6 & A7 & _).
    pose proof (mpc_reach_inv _ _ zero_eq _ _ _ _ _ R2) as (B1 & B2 & B3 & B4 & B5 & B6 & B7 & _).
    destruct (MpcData_ctor O qp) as [d|e|u] eqn:Ed.
    2,3: left; unfold FBstabMpc_Solve; rewrite Ed; cbn [snd]; first [apply same_throw|apply same_ub].
    assert (EV : mpc_validate_inputs s1 d x1 = mpc_validate_inputs s2 d x2).
    { unfold mpc_validate_inputs. rewrite A1, A2, A3, A4, A5, A6, A7, B1, B2, B3, B4, B5, B6, B7, Ez, El, Ev, Ey. reflexivity. }
    destruct (mpc_validate_inputs s2 d x2) as [[]|e|u] eqn:V2.
    2,3: left; unfold FBstabMpc_Solve; rewrite Ed, V2, EV; cbn [snd]; first [apply same_throw|apply same_ub].
    destruct (mpc_desc O LA zero_eq _ _ _ _ s1 qp d k1 x1 el R1 Hs Hc Ed EV) as (_ & _ & _ & _ & _ & C1).
    destruct (mpc_desc O LA zero_eq _ _ _ _ s2 qp d k2 x2 el R2 Hs Hc Ed V2) as (_ & _ & _ & _ & _ & C2).
    destruct (desc_later (mpcDI O) d _ _ _ _ _ x1 x2 el _ _ _ _ _ _ _ _ (fun _ _ => True) SL (TG d eq_refl) C1 C2) as [H|H];
      try assumption; [|left; exact H|right; exists d; split; [reflexivity|exact H]].
    intros _. split; [exact I|]. intros u1 u2 y Hu1 Hu2 _ Hy. split; [|exact I].
    match goal with |- snd (pfeas _ _ _ ?a ?b ?c _ _ _) = _ => pose proof (mpc_beta0 O zero_eq d a b c) as B end.
    unfold pfeas. destruct u1 as [[tz1 tl1] tv1], u2 as [[tz2 tl2] tv2].
    destruct Hu1 as (L1 & L2 & L3), Hu2 as (M1 & M2 & M3). destruct Hy as (Y1 & _). cbn [snd].
    destruct (B (v_z y) tv1 tv2 Y1) as (-> & _ & _); auto.
    destruct (B (v_z y) tl1 tl2 Y1) as (_ & -> & _); auto.
    destruct (B (v_z y) tz1 tz2 Y1) as (_ & _ & ->); auto.
  Qed.

  Lemma dense_later_rel nz nl nv s1 s2 qp k1 k2 x1 x2 el (R : ws T -> ws T -> Prop) :
    (p_check_feas (ds_options s2) = true -> R (ws_of (ds_alg s1)) (ws_of (ds_alg s2)) /\
       forall d, dense_ok d (Z.to_nat nz) (Z.to_nat nl) (Z.to_nat nv) ->
       forall u1 u2 y tol, ws_ok (Z.to_nat nz) (Z.to_nat nl) (Z.to_nat nv) u1 -> ws_ok (Z.to_nat nz) (Z.to_nat nl) (Z.to_nat nv) u2 -> R u1 u2 ->
       var_ok (Z.to_nat nz) (Z.to_nat nl) (Z.to_nat nv) y ->
       let f u := pfeas O (denseDI O) d (Z.to_nat nz) (Z.to_nat nl) (Z.to_nat nv) tol u y in
       snd (f u1) = snd (f u2) /\ R (fst (f u1)) (fst (f u2))) ->
    dense_reach O LA nz nl nv s1 -> dense_reach O LA nz nl nv s2 ->
    stops_later O (ds_options s1) (ds_options s2) ->
    (forall d, bound_dense O qp d ->
       tighter O (tolerance O (denseDI O) d (ds_options s1)) (tolerance O (denseDI O) d (ds_options s2))) ->
    v_z x1 = v_z x2 -> v_l x1 = v_l x2 -> v_v x1 = v_v x2 ->
    y_fits k1 x1 (Z.to_nat nv) -> y_fits k2 x2 (Z.to_nat nv) ->
    let r1 := snd (FBstabDense_Solve O LA s1 qp k1 x1 el) in
    let r2 := snd (FBstabDense_Solve O LA s2 qp k2 x2 el) in
    same_answer r1 r2 \/
    exists d, bound_dense O qp d /\
      stopped_earlier (ds_options s1) (ds_options s2) (tolerance O (denseDI O) d (ds_options s1))
                      (tolerance O (denseDI O) d (ds_options s2)) r1 r2.
  Proof.
    intros B R1 R2 SL TG Ez El Ev Y1 Y2. cbv zeta. unfold bound_dense in *.
    pose proof (dense_reach_inv _ _ _ _ _ _ R1) as (A1 & A2 & A3 & _).
    pose proof (dense_reach_inv _ _ _ _ _ _ R2) as (B1 & B2 & B3 & _).
    destruct (DenseData_ctor O (Some (q_H qp)) (Some (q_f qp)) (Some (q_G qp)) (Some (q_h qp))
                     (Some (q_A qp)) (Some (q_b qp))) as [d|e|u] eqn:Ed.
    2,3: left; unfold FBstabDense_Solve; rewrite Ed; cbn [snd]; first [apply same_throw|apply same_ub].
    assert (EV : dense_validate s1 d x1 = dense_validate s2 d x2).
    { unfold dense_validate. rewrite A1, A2, A3, B1, B2, B3, Ez, El, Ev. reflexivity. }
    destruct (dense_validate s2 d x2) as [[]|e|u] eqn:V2.
    2,3: left; unfold FBstabDense_Solve; rewrite Ed, V2, EV; cbn [snd]; first [apply same_throw|apply same_ub].
    destruct (dense_desc O LA _ _ _ s1 qp d k1 x1 el R1 Ed EV Y1) as (D0 & C1).
    destruct (dense_desc O LA _ _ _ s2 qp d k2 x2 el R2 Ed V2 Y2) as (_ & C2).
    destruct (desc_later (denseDI O) d _ _ _ _ _ x1 x2 el _ _ _ _ _ _ _ _ R SL (TG d eq_refl) C1 C2) as [H|H];
      try assumption; [|left; exact H|right; exists d; split; [reflexivity|exact H]].
    intro CF. destruct (B CF) as [B0 B9]. split; [exact B0|]. intros u1 u2 y H1 H2 H3 H4. apply (B9 d D0); assumption.
  Qed.
  (* One FBstabDense object after any history, given options o1 or given options o2. *)
  Theorem C72_dense : forall nz nl nv s o1 o2 qp k x el,
    dense_reach O LA nz nl nv s ->
    let s1 := fst (FBstabDense_UpdateOptions O s o1) in
    let s2 := fst (FBstabDense_UpdateOptions O s o2) in
    stops_later O (ds_options s1) (ds_options s2) ->
    (forall d, bound_dense O qp d ->
       tighter O (tolerance O (denseDI O) d (ds_options s1)) (tolerance O (denseDI O) d (ds_options s2))) ->
    y_fits k x (Z.to_nat nv) ->
    let r1 := snd (FBstabDense_Solve O LA s1 qp k x el) in
    let r2 := snd (FBstabDense_Solve O LA s2 qp k x el) in
    same_answer r1 r2 \/
    exists d, bound_dense O qp d /\
      stopped_earlier (ds_options s1) (ds_options s2) (tolerance O (denseDI O) d (ds_options s1))
                      (tolerance O (denseDI O) d (ds_options s2)) r1 r2.
  Proof.
    intros nz nl nv s o1 o2 qp k x el R s1 s2 SL TG Y.
    assert (W : forall o, ws_of (ds_alg (fst (FBstabDense_UpdateOptions O s o))) = ws_of (ds_alg s)).
    { intro o. unfold FBstabDense_UpdateOptions. destruct (UpdateParameters O _ o); reflexivity. }
    apply (dense_later_rel nz nl nv s1 s2 qp k k x x el eq); try assumption; try reflexivity; try (apply dr_update; exact R).
    intros _. split; [unfold s1, s2; rewrite !W; reflexivity|]. intros d D0 u1 u2 y tol _ _ -> _. split; reflexivity.
  Qed.
  (* Two FBstabDense objects after any two histories, when the second call does not test for infeasibility. *)
  Theorem C72_dense_no_check : forall nz nl nv s1 s2 qp k1 k2 x1 x2 el,
    p_check_feas (ds_options s2) = false ->
    dense_reach O LA nz nl nv s1 -> dense_reach O LA nz nl nv s2 ->
    stops_later O (ds_options s1) (ds_options s2) ->
    (forall d, bound_dense O qp d ->
       tighter O (tolerance O (denseDI O) d (ds_options s1)) (tolerance O (denseDI O) d (ds_options s2))) ->
    v_z x1 = v_z x2 -> v_l x1 = v_l x2 -> v_v x1 = v_v x2 ->
    y_fits k1 x1 (Z.to_nat nv) -> y_fits k2 x2 (Z.to_nat nv) ->
    let r1 := snd (FBstabDense_Solve O LA s1 qp k1 x1 el) in
    let r2 := snd (FBstabDense_Solve O LA s2 qp k2 x2 el) in
    same_answer r1 r2 \/
    exists d, bound_dense O qp d /\
      stopped_earlier (ds_options s1) (ds_options s2) (tolerance O (denseDI O) d (ds_options s1))
                      (tolerance O (denseDI O) d (ds_options s2)) r1 r2.
  Proof.
    intros nz nl nv s1 s2 qp k1 k2 x1 x2 el CF. apply (dense_later_rel nz nl nv s1 s2 qp k1 k2 x1 x2 el (fun _ _ => True)).
    rewrite CF. discriminate.
  Qed.

  (* Only the limits (and the options that do nothing) differ.  A call that did not run into its limit
     gives the same answer with larger limits; a call that stayed below smaller limits gives the same
     answer with those; a call that ran into its limit takes at least as many steps with larger ones. *)
  Theorem C72_mpc_limits : forall N nx nu nc s1 s2 qp k1 k2 x1 x2 el,
    mpc_reach O LA N nx nu nc s1 -> mpc_reach O LA N nx nu nc s2 ->
    more_iterations O (mps_options s1) (mps_options s2) ->
    same_guess x1 x2 -> seqs_valid qp -> single_columns qp ->
    let r1 := snd (FBstabMpc_Solve O LA s1 qp k1 x1 el) in
    let r2 := snd (FBstabMpc_Solve O LA s2 qp k2 x2 el) in
    limits_only (mps_options s1) r1 r2.
  Proof.
    intros N nx nu nc s1 s2 qp k1 k2 x1 x2 el R1 R2 [SL E1 E2 E3 E4] G V C. cbv zeta.
    apply limits_from with (o' := mps_options s2); [exact E3|exact E4|].
    destruct (C72_mpc N nx nu nc s1 s2 qp k1 k2 x1 x2 el R1 R2 SL) as [H|(d & _ & H)]; try assumption.
    - intros d _ E. unfold tolerance. rewrite E1, E2. auto.
    - left. exact H.
    - right. unfold tolerance in H. rewrite E1, E2 in H. eexists. exact H.
  Qed.
  Theorem C72_dense_limits : forall nz nl nv s o1 o2 qp k x el,
    dense_reach O LA nz nl nv s ->
    let s1 := fst (FBstabDense_UpdateOptions O s o1) in
    let s2 := fst (FBstabDense_UpdateOptions O s o2) in
    more_iterations O (ds_options s1) (ds_options s2) -> y_fits k x (Z.to_nat nv) ->
    let r1 := snd (FBstabDense_Solve O LA s1 qp k x el) in
    let r2 := snd (FBstabDense_Solve O LA s2 qp k x el) in
    limits_only (ds_options s1) r1 r2.
  Proof.
    intros nz nl nv s o1 o2 qp k x el R s1 s2 [SL E1 E2 E3 E4] Y. cbv zeta.
    apply limits_from with (o' := ds_options s2); [exact E3|exact E4|].
    destruct (C72_dense nz nl nv s o1 o2 qp k x el R SL) as [H|(d & _ & H)]; try assumption.
    - intros d _ E. fold s1 s2. unfold tolerance. rewrite E1, E2. auto.
    - left. exact H.
    - right. fold s1 s2 in H. unfold tolerance in H. rewrite E1, E2 in H. eexists. exact H.
  Qed.
End Calls.

(* ---------- exact arithmetic ---------- *)
Lemma tighter_R t t' : (t' <= t)%R -> tighter Rops t t'.
Proof. intros H E HE. apply Rleb_true in HE. apply Rleb_true. lra. Qed.
(* two FBstabDense objects after any two histories *)
Theorem C72_dense_exact : forall (LA : LinAlg R) nz nl nv s1 s2 qp k1 k2 x1 x2 el,
  dense_reach Rops LA nz nl nv s1 -> dense_reach Rops LA nz nl nv s2 ->
  stops_later Rops (ds_options s1) (ds_options s2) ->
  (forall d, bound_dense Rops qp d ->
     tighter Rops (tolerance Rops (denseDI Rops) d (ds_options s1)) (tolerance Rops (denseDI Rops) d (ds_options s2))) ->
  v_z x1 = v_z x2 -> v_l x1 = v_l x2 -> v_v x1 = v_v x2 ->
  y_fits k1 x1 (Z.to_nat nv) -> y_fits k2 x2 (Z.to_nat nv) ->
  let r1 := snd (FBstabDense_Solve Rops LA s1 qp k1 x1 el) in
  let r2 := snd (FBstabDense_Solve Rops LA s2 qp k2 x2 el) in
  same_answer r1 r2 \/
  exists d, bound_dense Rops qp d /\
    stopped_earlier (ds_options s1) (ds_options s2) (tolerance Rops (denseDI Rops) d (ds_options s1))
                    (tolerance Rops (denseDI Rops) d (ds_options s2)) r1 r2.
Proof.
  intros LA nz nl nv s1 s2 qp k1 k2 x1 x2 el. apply (dense_later_rel Rops LA nz nl nv s1 s2 qp k1 k2 x1 x2 el (fun _ _ => True)).
  intros _. split; [exact I|]. intros d Hd u1 u2 y tol Hu1 Hu2 _ Hy. cbv zeta. split; [|exact I].
  pose proof (dense_beta0_R d _ _ _ Hd) as B. unfold pfeas. destruct u1 as [[tz1 tl1] tv1], u2 as [[tz2 tl2] tv2].
  destruct Hu1 as (L1 & L2 & L3), Hu2 as (M1 & M2 & M3). destruct Hy as (Y1 & _). cbn [snd].
  destruct (B (v_z y) tv1 tv2 Y1) as (-> & _ & _); auto.
  destruct (B (v_z y) tl1 tl2 Y1) as (_ & -> & _); auto.
  destruct (B (v_z y) tz1 tz2 Y1) as (_ & _ & ->); auto.
Qed.
(* smaller tolerances are stricter, whatever the problem *)
Theorem C72_smaller_tolerances : forall D (DI : DataI R D) d (o o' : params R), (0 <= di_fnorm DI d)%R ->
  (p_abs_tol o' <= p_abs_tol o)%R -> (p_rel_tol o' <= p_rel_tol o)%R ->
  tighter Rops (tolerance Rops DI d o) (tolerance Rops DI d o').
Proof.
  intros D DI d o o' H0 H1 H2. apply tighter_R. unfold tolerance. cbn [o_add o_mul o_one Rops].
  apply Rplus_le_compat; [exact H1|]. apply Rmult_le_compat_r; [lra|exact H2].
Qed.

Print Assumptions C72_mpc.
Print Assumptions C72_dense.
Print Assumptions C72_dense_no_check.
Print Assumptions C72_mpc_limits.
Print Assumptions C72_dense_limits.
Print Assumptions C72_dense_exact.
Print Assumptions C72_smaller_tolerances.
