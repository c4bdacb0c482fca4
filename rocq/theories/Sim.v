(* Two runs of [psolve] on problems that agree give the same answer: the common core of history
   independence (C13), irrelevance of the input y (C15), of the display level (C16) and of the
   equivalence of the two solvers (C40). *)
From Verif Require Export Loops.

Definition with_display {T} (o : params T) (dl : display) : params T :=
  mkParams (p_sigma0 o) (p_sigma_max o) (p_sigma_min o) (p_alpha o) (p_beta o) (p_eta o) (p_delta o)
    (p_gamma o) (p_abs_tol o) (p_rel_tol o) (p_stall_tol o) (p_infeas_tol o) (p_inner_tol_max o)
    (p_inner_tol_min o) (p_max_newton o) (p_max_prox o) (p_max_inner o) (p_max_ls o)
    (p_check_feas o) (p_nonmonotone o) dl.

Definition rsim {A B} (R : A -> B -> Prop) (r1 : res A) (r2 : res B) : Prop :=
  match r1, r2 with
  | Ok a, Ok b => R a b
  | Throw e, Throw e' => e = e'
  | UB u, UB u' => u = u'
  | _, _ => False
  end.
Definition wsim {T A B} (R : A -> B -> Prop) (m1 : W T A) (m2 : W T B) : Prop :=
  snd (fst m1) = snd (fst m2) /\ rsim R (snd m1) (snd m2).

Lemma wsim_bind {T A B A' B'} (R : A -> B -> Prop) (S : A' -> B' -> Prop)
      (m1 : W T A) (m2 : W T B) f g :
  wsim R m1 m2 -> (forall a b, R a b -> wsim S (f a) (g b)) -> wsim S (wbind m1 f) (wbind m2 g).
Proof.
  destruct m1 as [[l1 t1] r1], m2 as [[l2 t2] r2]. unfold wsim. cbn [fst snd].
  intros [E R0] HS. cbn [wbind]. subst t2.
  destruct r1 as [a|e|u], r2 as [b|e'|u']; cbn in R0; try contradiction.
  - specialize (HS _ _ R0). destruct (f a) as [[la ta] ra], (g b) as [[lb tb] rb].
    cbn [fst snd] in *. destruct HS as [-> HS]. auto.
  - cbn. auto.
  - cbn. auto.
Qed.
Lemma wsim_ret {T A B} (R : A -> B -> Prop) a b : R a b -> wsim R (@wret T A a) (@wret T B b).
Proof. intro H. split; [reflexivity|exact H]. Qed.
Lemma wsim_log {T} l1 l2 : wsim eq (@wlog T l1) (@wlog T l2).
Proof. split; reflexivity. Qed.
Lemma wsim_ghost {T} (g : ghost T) : wsim eq (wghost g) (wghost g).
Proof. split; reflexivity. Qed.
Lemma wsim_lift {T A B} (R : A -> B -> Prop) r1 r2 : rsim R r1 r2 -> wsim R (@wlift T A r1) (@wlift T B r2).
Proof. intro H. split; [reflexivity|exact H]. Qed.
Lemma rsim_refl {A} (r : res A) : rsim eq r r.
Proof. destruct r; reflexivity. Qed.

Section Sim.
  Context {T : Type} (O : Ops T) (o : params T) (dl : display) (pb1 pb2 : prob T).
  Context (vok : var T -> Prop) (wrel : ws T -> ws T -> Prop).
  Notation o2 := (with_display o dl).

  Record prob_sim : Prop := {
    sim_pnr : forall x, vok x -> pb_pnr pb1 x = pb_pnr pb2 x;
    sim_inner : forall x xb, vok x -> vok xb -> pb_inner pb1 x xb = pb_inner pb2 x xb;
    sim_newton : forall x xb, vok x -> vok xb ->
      pb_newton pb1 x xb (rsd_neg O (pb_inner pb2 x xb)) = pb_newton pb2 x xb (rsd_neg O (pb_inner pb2 x xb));
    sim_newton_ok : forall x xb dx, vok x -> vok xb ->
      pb_newton pb2 x xb (rsd_neg O (pb_inner pb2 x xb)) = Ok dx -> vok dx;
    sim_axpy : forall a x y, vok x -> vok y -> pb_axpy pb1 a x y = pb_axpy pb2 a x y;
    sim_axpy_ok : forall a x y, vok x -> vok y -> vok (pb_axpy pb2 a x y);
    sim_proj : forall x, vok x -> vok (proj_duals O x);
    sim_feas : p_check_feas o = true -> forall w1 w2 x, wrel w1 w2 -> vok x ->
      snd (pb_feas pb1 w1 x) = snd (pb_feas pb2 w2 x) /\
      wrel (fst (pb_feas pb1 w1 x)) (fst (pb_feas pb2 w2 x));
    sim_combo : pb_combo pb1 = pb_combo pb2 }.

  Hypothesis HS : prob_sim.

  Lemma pls_sim fuel : forall j t m0 cm x xb dx ri1 ri2, vok x -> vok xb -> vok dx ->
    wsim (fun a b => fst a = fst b) (pls O o pb1 fuel j t m0 cm x xb dx ri1)
                                    (pls O o2 pb2 fuel j t m0 cm x xb dx ri2).
  Proof.
    induction fuel as [|fuel IH]; intros j t m0 cm x xb dx ri1 ri2 Hx Hb Hd; cbn [pls].
    - apply wsim_ret. reflexivity.
    - rewrite (sim_axpy HS) by assumption.
      assert (Hp : vok (pb_axpy pb2 t dx x)) by (apply (sim_axpy_ok HS); assumption).
      rewrite (sim_inner HS) by assumption. cbn [p_eta p_beta with_display].
      eapply wsim_bind; [apply wsim_ghost|]. intros _ _ _.
      destruct (o_leb O _ _).
      + apply wsim_ret. reflexivity.
      + apply IH; assumption.
  Qed.

  Definition st_rel (a b : T * var T * var T * rsd T * list T) : Prop :=
    let '(t, x', dx, ri, m) := a in let '(t', x'', dx', ri', m') := b in
    t = t' /\ x' = x'' /\ dx = dx' /\ m = m' /\ vok x' /\ vok dx.

  Lemma pstep_sim x xb m : vok x -> vok xb ->
    wsim st_rel (pstep O o pb1 x xb (pb_inner pb2 x xb) m) (pstep O o2 pb2 x xb (pb_inner pb2 x xb) m).
  Proof.
    intros Hx Hb. unfold pstep.
    rewrite (sim_newton HS) by assumption.
    eapply wsim_bind with (R := fun a b => a = b /\ vok a).
    { apply wsim_lift. destruct (pb_newton pb2 x xb _) as [dx|e|u] eqn:EN; cbn; auto.
      split; [reflexivity|]. exact (sim_newton_ok HS x xb dx Hx Hb EN). }
    intros dx dx2 [<- Hd].
    eapply wsim_bind; [apply wsim_ghost|]. intros _ _ _.
    cbn [p_nonmonotone p_max_ls with_display].
    eapply wsim_bind; [apply pls_sim; assumption|].
    intros [[[t j] acc] ri1] [[[t' j'] acc'] ri2] E. cbn in E. injection E as <- <- <-.
    rewrite (sim_axpy HS) by assumption.
    eapply wsim_bind; [apply wsim_ghost|]. intros _ _ _.
    apply wsim_ret. unfold st_rel. auto 10 using (sim_axpy_ok HS).
  Qed.

  (* inner loop results: equal up to the inner residual, which is only printed *)
  Definition in_rel (a b : T * var T * var T * rsd T * rsd T * Z) : Prop :=
    let '(Eo, x, dx, ri, rk, n) := a in let '(Eo', x', dx', ri', rk', n') := b in
    Eo = Eo' /\ x = x' /\ dx = dx' /\ rk = rk' /\ n = n' /\ vok x /\ vok dx.

  Lemma pinner_sim fuel : forall i t Eo tol Ek x xb dx ri1 ri2 rk n m, vok x -> vok xb -> vok dx ->
    wsim in_rel (pinner O o pb1 fuel i t Eo tol Ek x xb dx ri1 rk n m)
                (pinner O o2 pb2 fuel i t Eo tol Ek x xb dx ri2 rk n m).
  Proof.
    induction fuel as [|fuel IH]; intros i t Eo tol Ek x xb dx ri1 ri2 rk n m Hx Hb Hd; cbn [pinner].
    - apply wsim_ret. unfold in_rel. auto 10.
    - rewrite (sim_inner HS), (sim_pnr HS) by assumption.
      cbn [p_inner_tol_min p_max_newton with_display].
      eapply wsim_bind; [apply wsim_ghost|]. intros _ _ _.
      destruct (_ || _).
      + eapply wsim_bind; [apply wsim_log|]. intros _ _ _. apply wsim_ret. unfold in_rel. auto 10.
      + eapply wsim_bind; [apply wsim_log|]. intros _ _ _.
        destruct (_ <=? _)%Z.
        * apply wsim_ret. unfold in_rel. auto 10.
        * eapply wsim_bind; [apply pstep_sim; assumption|].
          intros [[[[t1 x1] dx1] r1] m1] [[[[t2 x2] dx2] r2] m2] (<- & <- & <- & <- & H1 & H2).
          apply IH; assumption.
  Qed.

  Lemma psub_sim tol Ek xk dx ri1 ri2 rk n : vok xk -> vok dx ->
    wsim in_rel (psub O o pb1 tol Ek xk dx ri1 rk n) (psub O o2 pb2 tol Ek xk dx ri2 rk n).
  Proof.
    intros Hx Hd. unfold psub. cbn [p_max_inner with_display].
    eapply wsim_bind; [apply pinner_sim; assumption|].
    intros [[[[[E1 x1] d1] r1] k1] n1] [[[[[E2 x2] d2] r2] k2] n2] (<- & <- & <- & <- & <- & H1 & H2).
    eapply wsim_bind; [apply wsim_ghost|]. intros _ _ _.
    apply wsim_ret. unfold in_rel. auto 10 using (sim_proj HS).
  Qed.

  Lemma poutput_sim e el E0 n p rk :
    wsim eq (poutput O o pb1 e el E0 n p rk) (poutput O o2 pb2 e el E0 n p rk).
  Proof.
    unfold poutput. eapply wsim_bind; [apply wsim_log|]. intros _ _ _. apply wsim_ret. reflexivity.
  Qed.

  Lemma pprox_sim el E0 fuel : forall itol xk dx ri1 ri2 rk w1 w2 n p,
    vok xk -> vok dx -> wrel w1 w2 ->
    wsim eq (pprox O o pb1 el E0 fuel itol xk dx ri1 rk w1 n p)
            (pprox O o2 pb2 el E0 fuel itol xk dx ri2 rk w2 n p).
  Proof.
    induction fuel as [|fuel IH]; intros itol xk dx ri1 ri2 rk w1 w2 n p Hx Hd Hw; cbn [pprox].
    - eapply wsim_bind; [apply poutput_sim|]. intros a b <-. apply wsim_ret. reflexivity.
    - rewrite (sim_pnr HS), (sim_combo HS) by assumption.
      cbn [p_stall_tol p_delta p_inner_tol_min p_max_newton p_check_feas with_display].
      destruct (_ || _).
      + eapply wsim_bind; [apply wsim_log|]. intros _ _ _.
        eapply wsim_bind; [apply poutput_sim|]. intros a b <-. apply wsim_ret. reflexivity.
      + eapply wsim_bind; [apply wsim_log|]. intros _ _ _.
        eapply wsim_bind; [apply wsim_lift; apply rsim_refl|]. intros it _ <-.
        eapply wsim_bind; [apply wsim_ghost|]. intros _ _ _.
        eapply wsim_bind; [apply psub_sim; assumption|].
        intros [[[[[E1 x1] d1] r1] k1] n1] [[[[[E2 x2] d2] r2] k2] n2] (<- & <- & <- & <- & <- & H1 & H2).
        destruct (_ <=? _)%Z.
        * rewrite (sim_pnr HS) by (destruct (o_ltb O _ _); assumption).
          eapply wsim_bind; [apply poutput_sim|]. intros a b <-. apply wsim_ret. reflexivity.
        * rewrite (sim_axpy HS) by assumption.
          assert (Hd2 : vok (pb_axpy pb2 (o_mone O) xk x1)) by (apply (sim_axpy_ok HS); assumption).
          eapply wsim_bind; [apply wsim_ghost|]. intros _ _ _.
          destruct (p_check_feas o) eqn:CF.
          -- destruct (sim_feas HS CF w1 w2 _ Hw Hd2) as (F1 & F2).
             destruct (pb_feas pb1 w1 _) as [w1' f1], (pb_feas pb2 w2 _) as [w2' f2].
             cbn [fst snd] in F1, F2. subst f2.
             destruct f1; cbn [flag_of].
             { apply IH; assumption. }
             all: eapply wsim_bind; [apply poutput_sim|]; intros a b <-; apply wsim_ret; reflexivity.
          -- cbn [flag_of]. apply IH; assumption.
  Qed.

  (* the guesses may differ in y *)
  Lemma psolve_sim nz nl nv el st1 st2 w1 w2 (c1 c2 : var T) :
    v_z c1 = v_z c2 -> v_l c1 = v_l c2 -> v_v c1 = v_v c2 ->
    pb_margin pb1 (v_z c2) = pb_margin pb2 (v_z c2) ->
    pb_margin pb1 (vconst nz (o_one O)) = pb_margin pb2 (vconst nz (o_one O)) ->
    vok (pstart pb2 c2) -> vok (pones O pb2 nz nl nv) -> wrel w1 w2 ->
    wsim eq (psolve O o pb1 nz nl nv el st1 w1 c1) (psolve O o2 pb2 nz nl nv el st2 w2 c2).
  Proof.
    intros Ez El Ev M1 M2 H1 H2 Hw. unfold psolve.
    assert (P1 : pstart pb1 c1 = pstart pb2 c2) by (unfold pstart; rewrite Ez, El, Ev, M1; reflexivity).
    assert (P2 : pones O pb1 nz nl nv = pones O pb2 nz nl nv) by (unfold pones; rewrite M2; reflexivity).
    rewrite P1, P2, (sim_pnr HS) by assumption.
    cbn [p_inner_tol_min p_inner_tol_max p_max_prox with_display].
    eapply wsim_bind; [apply wsim_lift; apply rsim_refl|]. intros it _ <-.
    eapply wsim_bind; [apply wsim_log|]. intros _ _ _.
    apply pprox_sim; assumption.
  Qed.
End Sim.

Lemma presult_sim {T} (m1 m2 : W T (solver_out T * var T)) x1 x2 : wsim eq m1 m2 ->
  let r1 := presult m1 x1 in let r2 := presult m2 x2 in
  sr_out r1 = sr_out r2 /\ sr_trace r1 = sr_trace r2 /\
  ((exists out, sr_out r1 = Ok out) -> sr_x r1 = sr_x r2).
Proof.
  destruct m1 as [[l1 t1] r1], m2 as [[l2 t2] r2]. unfold wsim. cbn [fst snd]. intros [<- R].
  destruct r1 as [[o1 y1]|e|u], r2 as [[o2 y2]|e'|u']; cbn in R; try contradiction; try subst; cbn.
  - injection R as <- <-. auto.
  - split; [reflexivity|]. split; [reflexivity|]. intros [out E]; discriminate.
  - split; [reflexivity|]. split; [reflexivity|]. intros [out E]; discriminate.
Qed.
