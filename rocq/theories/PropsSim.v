(* History independence (C13), the y argument (C15, first part), display levels (C16) and the
   printed tolerance (C47). *)
From Verif Require Export Spec Sim.
From Coq Require Import Reals.
Local Open Scope nat_scope.

(* ---------- specification ---------- *)

(* two results a caller cannot tell apart, prints excepted: same output record or exception,
   same returned point, same sequence of internal steps *)
Definition same_answer {T} (r1 r2 : solve_result T) : Prop :=
  sr_out r1 = sr_out r2 /\ sr_trace r1 = sr_trace r2 /\
  ((exists out, sr_out r1 = Ok out) -> sr_x r1 = sr_x r2).

(* the same guess up to the content of y *)
Definition same_guess {T} (x1 x2 : var T) : Prop :=
  v_z x1 = v_z x2 /\ v_l x1 = v_l x2 /\ v_v x1 = v_v x2 /\ length (v_y x1) = length (v_y x2).

(* the same options up to the display level *)
Definition same_but_display {T} (o1 o2 : params T) : Prop := exists dl, o2 = with_display o1 dl.

(* ---------- proofs ---------- *)
Section SimCalls.
  Context {T : Type} (O : Ops T) (LA : LinAlg T).
  Hypothesis zero_eq : o_eqb O (o_zero O) (o_zero O) = true.

  (* gemv with b = 0 does not read y *)
  Definition Beta0 {D} (DI : DataI T D) (d : D) (nz nl nv : nat) : Prop :=
    forall z y y', length z = nz ->
    (length y = nv -> length y' = nv -> gA DI d z (o_one O) (o_zero O) y = gA DI d z (o_one O) (o_zero O) y') /\
    (length y = nl -> length y' = nl -> gG DI d z (o_one O) (o_zero O) y = gG DI d z (o_one O) (o_zero O) y') /\
    (length y = nz -> length y' = nz -> gH DI d z (o_one O) (o_zero O) y = gH DI d z (o_one O) (o_zero O) y').

  (* R: what the workspaces of the two objects have in common *)
  Lemma desc_sim_rel {D} (DI : DataI T D) d nz nl nv o dl x1 x2 el r1 r2 pinit pst st1 st2 w1 w2 (R : ws T -> ws T -> Prop) :
    call_desc O DI d nz nl nv o x1 el r1 pinit pst st1 w1 ->
    call_desc O DI d nz nl nv (with_display o dl) x2 el r2 pinit pst st2 w2 ->
    (p_check_feas o = true -> R w1 w2 /\ forall u1 u2 y, ws_ok nz nl nv u1 -> ws_ok nz nl nv u2 -> R u1 u2 -> var_ok nz nl nv y ->
       snd (pfeas O DI d nz nl nv (p_infeas_tol o) u1 y) = snd (pfeas O DI d nz nl nv (p_infeas_tol o) u2 y) /\
       R (fst (pfeas O DI d nz nl nv (p_infeas_tol o) u1 y)) (fst (pfeas O DI d nz nl nv (p_infeas_tol o) u2 y))) ->
    v_z x1 = v_z x2 -> v_l x1 = v_l x2 -> v_v x1 = v_v x2 ->
    same_answer r1 r2.
  Proof.
    intros C1 C2 B Ez El Ev. unfold same_answer.
    rewrite (cd_run _ _ _ _ _ _ _ _ _ _ _ _ _ _ C1), (cd_run _ _ _ _ _ _ _ _ _ _ _ _ _ _ C2).
    apply presult_sim.
    set (pb1 := prob_of O DI d nz nl nv pinit pst o). set (pb2 := prob_of O DI d nz nl nv pinit pst (with_display o dl)).
    assert (PE : pb1 = pb2) by reflexivity.
    apply (psolve_sim O o dl pb1 pb2 (var_ok nz nl nv) (fun u1 u2 => ws_ok nz nl nv u1 /\ ws_ok nz nl nv u2 /\ (p_check_feas o = true -> R u1 u2))); auto.
    - constructor; try (intros; rewrite PE; reflexivity).
      + intros y yb dx Hy Hb E. exact (cl_newton O DI d nz nl nv _ _ _ _ _ _ _ _ C2 y yb dx Hy Hb E).
      + intros a y z Hy Hz. exact (cl_axpy O DI d nz nl nv _ _ _ _ _ _ _ _ C2 a y z Hy Hz).
      + intros y Hy. apply (cl_proj O nz nl nv y Hy).
      + intros CF u1 u2 y (Hu1 & Hu2 & Hr) Hy. specialize (B CF). specialize (Hr CF). destruct B as [_ B].
        destruct (B u1 u2 y Hu1 Hu2 Hr Hy) as [F1 F2]. split; [exact F1|].
        split; [exact (cl_feas O DI d nz nl nv _ _ _ _ _ _ _ _ C1 u1 y Hu1 Hy)|].
        split; [exact (cl_feas O DI d nz nl nv _ _ _ _ _ _ _ _ C2 u2 y Hu2 Hy)|]. intros _. exact F2.
    - exact (cl_start O DI d nz nl nv _ _ _ _ _ _ _ _ C2).
    - exact (cl_ones O DI d nz nl nv _ _ _ _ _ _ _ _ C2).
    - split; [exact (cd_ws _ _ _ _ _ _ _ _ _ _ _ _ _ _ C1)|].
      split; [exact (cd_ws _ _ _ _ _ _ _ _ _ _ _ _ _ _ C2)|]. intro CF. apply (B CF).
  Qed.

  Lemma desc_sim {D} (DI : DataI T D) d nz nl nv o dl x1 x2 el r1 r2 pinit pst st1 st2 w1 w2 :
    call_desc O DI d nz nl nv o x1 el r1 pinit pst st1 w1 ->
    call_desc O DI d nz nl nv (with_display o dl) x2 el r2 pinit pst st2 w2 ->
    (p_check_feas o = true -> Beta0 DI d nz nl nv) ->
    v_z x1 = v_z x2 -> v_l x1 = v_l x2 -> v_v x1 = v_v x2 ->
    same_answer r1 r2.
  Proof.
    intros C1 C2 B. apply (desc_sim_rel DI d nz nl nv o dl x1 x2 el r1 r2 pinit pst st1 st2 w1 w2 (fun _ _ => True) C1 C2).
    intro CF. specialize (B CF). split; [exact I|]. intros u1 u2 y Hu1 Hu2 _ Hy. split; [|exact I].
    unfold pfeas. destruct u1 as [[tz1 tl1] tv1], u2 as [[tz2 tl2] tv2].
    destruct Hu1 as (L1 & L2 & L3), Hu2 as (M1 & M2 & M3). destruct Hy as (Y1 & _). cbn [snd].
    destruct (B (v_z y) tv1 tv2 Y1) as (-> & _ & _); auto.
    destruct (B (v_z y) tl1 tl2 Y1) as (_ & -> & _); auto.
    destruct (B (v_z y) tz1 tz2 Y1) as (_ & _ & ->); auto.
  Qed.

  Lemma mpc_beta0 d nz nl nv : Beta0 (mpcDI O) d nz nl nv.
  Proof.
    intros z y y' Hz. unfold gA, gG, gH, mpcDI; cbn [di_gemvA di_gemvG di_gemvH].
    unfold mpc_gemvA, mpc_gemvG, mpc_gemvH, size_chk, prescale. rewrite zero_eq.
    split; [|split]; intros L1 L2; rewrite L1, L2; reflexivity.
  Qed.

  Lemma same_throw (e : err) (x1 x2 : var T) :
    same_answer (mkSR (Throw e) x1 [] []) (mkSR (Throw e) x2 [] []).
  Proof. unfold same_answer; cbn. repeat split. intros [? ?]; discriminate. Qed.
  Lemma same_ub (u : ub) (x1 x2 : var T) :
    same_answer (mkSR (UB u) x1 [] []) (mkSR (UB u) x2 [] []).
  Proof. unfold same_answer; cbn. repeat split. intros [? ?]; discriminate. Qed.

  (* ---------------------------------------------------------------- C13, C15, C16: MPC solver *)
  (* s1, s2: two FBstabMpc objects of the same sizes after arbitrary, different histories (and
     with different uninitialised memory), holding the same options up to the display level. *)
  Theorem C13_mpc_history_independence : forall N nx nu nc s1 s2 qp k1 k2 x1 x2 el,
    mpc_reach O LA N nx nu nc s1 -> mpc_reach O LA N nx nu nc s2 ->
    same_but_display (mps_options s1) (mps_options s2) -> same_guess x1 x2 ->
    seqs_valid qp -> single_columns qp ->
    same_answer (snd (FBstabMpc_Solve O LA s1 qp k1 x1 el)) (snd (FBstabMpc_Solve O LA s2 qp k2 x2 el)).
  Proof.
    intros N nx nu nc s1 s2 qp k1 k2 x1 x2 el R1 R2 [dl Ho] (Ez & El & Ev & Ey) Hs Hc.
    pose proof (mpc_reach_inv _ _ zero_eq _ _ _ _ _ R1) as (A1 & A2 & A3 & A4 & A5 & A6 & A7 & _).
    pose proof (mpc_reach_inv _ _ zero_eq _ _ _ _ _ R2) as (B1 & B2 & B3 & B4 & B5 & B6 & B7 & _).
    destruct (MpcData_ctor O qp) as [d|e|u] eqn:Ed.
    2,3: unfold FBstabMpc_Solve; rewrite Ed; cbn [snd]; first [apply same_throw|apply same_ub].
    assert (EV : mpc_validate_inputs s1 d x1 = mpc_validate_inputs s2 d x2).
    { unfold mpc_validate_inputs. rewrite A1, A2, A3, A4, A5, A6, A7, B1, B2, B3, B4, B5, B6, B7, Ez, El, Ev, Ey. reflexivity. }
    destruct (mpc_validate_inputs s2 d x2) as [[]|e|u] eqn:V2.
    2,3: unfold FBstabMpc_Solve; rewrite Ed, V2, EV; cbn [snd]; first [apply same_throw|apply same_ub].
    destruct (mpc_desc O LA zero_eq _ _ _ _ s1 qp d k1 x1 el R1 Hs Hc Ed EV) as (_ & _ & _ & _ & _ & C1).
    destruct (mpc_desc O LA zero_eq _ _ _ _ s2 qp d k2 x2 el R2 Hs Hc Ed V2) as (_ & _ & _ & _ & _ & C2).
    rewrite Ho in C2. eapply desc_sim; [exact C1|exact C2|intros _; apply mpc_beta0|assumption..].
  Qed.

  Lemma dense_history_rel nz nl nv s1 s2 qp k1 k2 x1 x2 el (R : ws T -> ws T -> Prop) :
    (p_check_feas (ds_options s1) = true -> R (ws_of (ds_alg s1)) (ws_of (ds_alg s2)) /\
       forall d, dense_ok d (Z.to_nat nz) (Z.to_nat nl) (Z.to_nat nv) ->
       forall u1 u2 y tol, ws_ok (Z.to_nat nz) (Z.to_nat nl) (Z.to_nat nv) u1 -> ws_ok (Z.to_nat nz) (Z.to_nat nl) (Z.to_nat nv) u2 -> R u1 u2 ->
       var_ok (Z.to_nat nz) (Z.to_nat nl) (Z.to_nat nv) y ->
       let f u := pfeas O (denseDI O) d (Z.to_nat nz) (Z.to_nat nl) (Z.to_nat nv) tol u y in
       snd (f u1) = snd (f u2) /\ R (fst (f u1)) (fst (f u2))) ->
    dense_reach O LA nz nl nv s1 -> dense_reach O LA nz nl nv s2 ->
    same_but_display (ds_options s1) (ds_options s2) ->
    v_z x1 = v_z x2 -> v_l x1 = v_l x2 -> v_v x1 = v_v x2 ->
    y_fits k1 x1 (Z.to_nat nv) -> y_fits k2 x2 (Z.to_nat nv) ->
    same_answer (snd (FBstabDense_Solve O LA s1 qp k1 x1 el)) (snd (FBstabDense_Solve O LA s2 qp k2 x2 el)).
  Proof.
    intros B R1 R2 [dl Ho] Ez El Ev Y1 Y2.
    pose proof (dense_reach_inv _ _ _ _ _ _ R1) as (A1 & A2 & A3 & _).
    pose proof (dense_reach_inv _ _ _ _ _ _ R2) as (B1 & B2 & B3 & _).
    destruct (DenseData_ctor O (Some (q_H qp)) (Some (q_f qp)) (Some (q_G qp)) (Some (q_h qp))
                     (Some (q_A qp)) (Some (q_b qp))) as [d|e|u] eqn:Ed.
    2,3: unfold FBstabDense_Solve; rewrite Ed; cbn [snd]; first [apply same_throw|apply same_ub].
    assert (EV : dense_validate s1 d x1 = dense_validate s2 d x2).
    { unfold dense_validate. rewrite A1, A2, A3, B1, B2, B3, Ez, El, Ev. reflexivity. }
    destruct (dense_validate s2 d x2) as [[]|e|u] eqn:V2.
    2,3: unfold FBstabDense_Solve; rewrite Ed, V2, EV; cbn [snd]; first [apply same_throw|apply same_ub].
    destruct (dense_desc O LA _ _ _ s1 qp d k1 x1 el R1 Ed EV Y1) as (D0 & C1).
    destruct (dense_desc O LA _ _ _ s2 qp d k2 x2 el R2 Ed V2 Y2) as (_ & C2).
    rewrite Ho in C2. eapply (desc_sim_rel _ _ _ _ _ _ _ _ _ _ _ _ _ _ _ _ _ _ R); [exact C1|exact C2| |assumption..].
    intro CF. destruct (B CF) as [B0 B9]. split; [exact B0|]. intros u1 u2 y H1 H2 H3 H4. apply (B9 d D0); assumption.
  Qed.
  Lemma dense_history nz nl nv s1 s2 qp k1 k2 x1 x2 el :
    (p_check_feas (ds_options s1) = true -> forall d, dense_ok d (Z.to_nat nz) (Z.to_nat nl) (Z.to_nat nv) ->
       Beta0 (denseDI O) d (Z.to_nat nz) (Z.to_nat nl) (Z.to_nat nv)) ->
    dense_reach O LA nz nl nv s1 -> dense_reach O LA nz nl nv s2 ->
    same_but_display (ds_options s1) (ds_options s2) ->
    v_z x1 = v_z x2 -> v_l x1 = v_l x2 -> v_v x1 = v_v x2 ->
    y_fits k1 x1 (Z.to_nat nv) -> y_fits k2 x2 (Z.to_nat nv) ->
    same_answer (snd (FBstabDense_Solve O LA s1 qp k1 x1 el)) (snd (FBstabDense_Solve O LA s2 qp k2 x2 el)).
  Proof.
    intro B. apply dense_history_rel with (R := fun _ _ => True). intro CF. split; [exact I|].
    intros d Hd u1 u2 y tol Hu1 Hu2 _ Hy. cbv zeta. split; [|exact I].
    specialize (B CF d Hd). unfold pfeas. destruct u1 as [[tz1 tl1] tv1], u2 as [[tz2 tl2] tv2].
    destruct Hu1 as (L1 & L2 & L3), Hu2 as (M1 & M2 & M3). destruct Hy as (Y1 & _). cbn [snd].
    destruct (B (v_z y) tv1 tv2 Y1) as (-> & _ & _); auto.
    destruct (B (v_z y) tl1 tl2 Y1) as (_ & -> & _); auto.
    destruct (B (v_z y) tz1 tz2 Y1) as (_ & _ & ->); auto.
  Qed.

  (* dense solver, any arithmetic, when the feasibility check is off *)
  Theorem C13_dense_history_no_check : forall nz nl nv s1 s2 qp k1 k2 x1 x2 el,
    p_check_feas (ds_options s1) = false ->
    dense_reach O LA nz nl nv s1 -> dense_reach O LA nz nl nv s2 ->
    same_but_display (ds_options s1) (ds_options s2) ->
    v_z x1 = v_z x2 -> v_l x1 = v_l x2 -> v_v x1 = v_v x2 ->
    y_fits k1 x1 (Z.to_nat nv) -> y_fits k2 x2 (Z.to_nat nv) ->
    same_answer (snd (FBstabDense_Solve O LA s1 qp k1 x1 el)) (snd (FBstabDense_Solve O LA s2 qp k2 x2 el)).
  Proof.
    intros nz nl nv s1 s2 qp k1 k2 x1 x2 el CF. apply dense_history. rewrite CF. discriminate.
  Qed.
End SimCalls.

(* dense solver, exact arithmetic *)
Lemma dense_beta0_R d nz nl nv : dense_ok d nz nl nv -> Beta0 Rops (denseDI Rops) d nz nl nv.
Proof.
  intros [] z y y' Hz. unfold gA, gG, gH, denseDI; cbn [di_gemvA di_gemvG di_gemvH].
  assert (K : forall M x (y y' : vec R), mr M = length y -> length y = length y' ->
             dense_gemv Rops M x (o_one Rops) (o_zero Rops) y = dense_gemv Rops M x (o_one Rops) (o_zero Rops) y').
  { intros M x u u' L1 L2. unfold dense_gemv. rewrite L2.
    destruct (_ && _); [|reflexivity]. cbn [ub_unless rbind]. f_equal. apply tab_ext. intros i Hi. cbn. ring. }
  split; [|split]; intros L1 L2; f_equal; apply K; intuition congruence.
Qed.

Theorem C13_dense_history_exact : forall (LA : LinAlg R) nz nl nv s1 s2 qp k1 k2 x1 x2 el,
  dense_reach Rops LA nz nl nv s1 -> dense_reach Rops LA nz nl nv s2 ->
  same_but_display (ds_options s1) (ds_options s2) ->
  v_z x1 = v_z x2 -> v_l x1 = v_l x2 -> v_v x1 = v_v x2 ->
  y_fits k1 x1 (Z.to_nat nv) -> y_fits k2 x2 (Z.to_nat nv) ->
  same_answer (snd (FBstabDense_Solve Rops LA s1 qp k1 x1 el)) (snd (FBstabDense_Solve Rops LA s2 qp k2 x2 el)).
Proof.
  intros LA nz nl nv s1 s2 qp k1 k2 x1 x2 el. apply dense_history. intros _ d Hd. apply dense_beta0_R. exact Hd.
Qed.


(* ---------------------------------------------------------------- C16, C47: prints *)
(* the summary printed at the end of a call *)
Definition summary_of {T} (O : Ops T) (o : params T) (tol el : T) (out : solver_out T) (ev : event T) : Prop :=
  exists rk, rsd_norm O rk = so_residual out /\
    ev = EvFinal (so_eflag out) (o_mul O (o_dec O 1000 0) el) (so_prox out) (p_max_prox o)
           (so_newton out) (p_max_newton o) (r_zn rk) (r_ln rk) (r_vn rk) tol.

(* the i-th line printed at level ITER reports i proximal iterations *)
Definition numbered_from {T} (p : Z) (lines : list (event T)) : Prop :=
  forall i, i < length lines -> exists n a b c e f,
    nth_error lines i = Some (EvIterLine (p + Z.of_nat i) n a b c e f).

Section Log.
  Context {T : Type} (O : Ops T) (o : params T) (pb : prob T).
  Definition lg {A} (m : W T A) : list (event T) := fst (fst m).

  Lemma lg_bind {A B} (m : W T A) (f : A -> W T B) :
    lg (wbind m f) = lg m ++ match snd m with Ok a => lg (f a) | _ => [] end.
  Proof.
    destruct m as [[l t] r]. unfold lg; cbn. destruct r as [a|e|u]; cbn.
    - destruct (f a) as [[l2 t2] r2]. reflexivity.
    - symmetry; apply app_nil_r.
    - symmetry; apply app_nil_r.
  Qed.
  Lemma snd_bind {A B} (m : W T A) (f : A -> W T B) :
    snd (wbind m f) = match snd m with Ok a => snd (f a) | Throw e => Throw e | UB u => UB u end.
  Proof.
    destruct m as [[l t] r]. cbn. destruct r as [a|e|u]; cbn; auto.
    destruct (f a) as [[l2 t2] r2]. reflexivity.
  Qed.
  Lemma lg_ghost (g : ghost T) : lg (wghost g) = []. Proof. reflexivity. Qed.
  Lemma lg_nil {A B} (m : W T A) (f : A -> W T B) :
    lg m = [] -> (forall a, snd m = Ok a -> lg (f a) = []) -> lg (wbind m f) = [].
  Proof. intros H1 H2. rewrite lg_bind, H1. cbn [app]. destruct (snd m); auto. Qed.

  Lemma pls_log fuel : forall j t m0 cm x xb dx ri, lg (pls O o pb fuel j t m0 cm x xb dx ri) = [].
  Proof.
    induction fuel as [|fuel IH]; intros; cbn [pls]; [reflexivity|].
    apply lg_nil; [reflexivity|]. intros [] _. destruct (o_leb O _ _); [reflexivity|apply IH].
  Qed.
  Lemma pstep_log x xb ri m : lg (pstep O o pb x xb ri m) = [].
  Proof.
    unfold pstep. apply lg_nil; [reflexivity|]. intros dx _. apply lg_nil; [reflexivity|]. intros [] _.
    apply lg_nil; [apply pls_log|]. intros [[[t j] acc] ri'] _. apply lg_nil; [reflexivity|]. intros; reflexivity.
  Qed.
  Hypothesis nd : is_det (p_display o) = false.
  Lemma pinner_log fuel : forall i t Eo tol Ek x xb dx ri rk n m,
    lg (pinner O o pb fuel i t Eo tol Ek x xb dx ri rk n m) = [].
  Proof.
    induction fuel as [|fuel IH]; intros; cbn [pinner]; [reflexivity|].
    apply lg_nil; [reflexivity|]. intros [] _.
    unfold det_line, det_footer. rewrite nd.
    destruct (_ || _).
    - apply lg_nil; [reflexivity|]. intros; reflexivity.
    - apply lg_nil; [reflexivity|]. intros [] _. destruct (_ <=? _)%Z; [reflexivity|].
      apply lg_nil; [apply pstep_log|]. intros [[[[t' x'] dx'] ri'] m'] _. apply IH.
  Qed.
  Lemma psub_log tol Ek xk dx ri rk n : lg (psub O o pb tol Ek xk dx ri rk n) = [].
  Proof.
    unfold psub. apply lg_nil; [apply pinner_log|]. intros [[[[[E1 x1] d1] r1] k1] n1] _.
    apply lg_nil; [reflexivity|]. intros; reflexivity.
  Qed.

  Definition nlines (n : nat) : nat := if is_iter (p_display o) then n else 0.
  (* what a run of the outer loop starting at prox = p with [fuel] iterations left prints *)
  Definition log_ok (el : T) (fuel : nat) (p : Z) (l : list (event T)) (r : res (solver_out T * var T)) : Prop :=
    exists lines rest, l = lines ++ rest /\ numbered_from p lines /\
    match r with
    | Ok (out, _) =>
        length lines = nlines (Nat.min (Z.to_nat (so_prox out - p) + 1) fuel) /\ (p <= so_prox out)%Z /\
        (if ge_final (p_display o) then exists ev, rest = [ev] /\ summary_of O o (pb_combo pb) el out ev
         else rest = [])
    | _ => length lines <= nlines fuel /\ rest = []
    end.

  Lemma out_log e el E0 n p rk : 
    snd (poutput O o pb e el E0 n p rk) = Ok (mkOut e (rsd_norm O rk) n p el E0) /\
    lg (poutput O o pb e el E0 n p rk) = final_line o pb e (o_mul O (o_dec O 1000 0) el) p n rk.
  Proof. unfold poutput. split; [reflexivity|]. unfold lg, wlog, wret, wbind; cbn. apply app_nil_r. Qed.

  Lemma num_nil p : @numbered_from T p [].
  Proof. intros i Hi. cbn in Hi. lia. Qed.
  Lemma num_cons p n (a b c e f : T) l : numbered_from (p + 1) l -> numbered_from p (EvIterLine p n a b c e f :: l).
  Proof.
    intros H [|i] Hi.
    - cbn [nth_error]. rewrite Z.add_0_r. eauto 10.
    - cbn [nth_error]. destruct (H i) as (n' & a' & b' & c' & e' & f' & E); [cbn in Hi; lia|].
      rewrite E. replace (p + 1 + Z.of_nat i)%Z with (p + Z.of_nat (S i))%Z by lia. eauto 10.
  Qed.

  (* printing the exit record *)
  Lemma exit_log e el E0 n p rk x fuel :
    let m := (out <<- poutput O o pb e el E0 n p rk ;; wret (out, x))%w in
    (lg m = final_line o pb e (o_mul O (o_dec O 1000 0) el) p n rk /\
     snd m = Ok (mkOut e (rsd_norm O rk) n p el E0, x)) /\
    log_ok el 0 p (lg m) (snd m) /\
    (forall ln, (exists n' a b c e' f, ln = EvIterLine p n' a b c e' f) ->
      log_ok el (S fuel) p ((if is_iter (p_display o) then [ln] else []) ++ lg m) (snd m)).
  Proof.
    cbv zeta. destruct (out_log e el E0 n p rk) as [H1 H2].
    assert (L : lg (out <<- poutput O o pb e el E0 n p rk ;; wret (out, x))%w =
                final_line o pb e (o_mul O (o_dec O 1000 0) el) p n rk).
    { rewrite lg_bind, H1, H2. apply app_nil_r. }
    assert (S' : snd (out <<- poutput O o pb e el E0 n p rk ;; wret (out, x))%w =
                 Ok (mkOut e (rsd_norm O rk) n p el E0, x)).
    { rewrite snd_bind, H1. reflexivity. }
    rewrite L, S'.
    assert (F : if ge_final (p_display o) then exists ev, final_line o pb e (o_mul O (o_dec O 1000 0) el) p n rk = [ev] /\
                   summary_of O o (pb_combo pb) el (mkOut e (rsd_norm O rk) n p el E0) ev
                else final_line o pb e (o_mul O (o_dec O 1000 0) el) p n rk = []).
    { unfold final_line. destruct (ge_final _); [|reflexivity]. eexists. split; [reflexivity|].
      exists rk. split; reflexivity. }
    split; [split; reflexivity|]. split.
    - exists [], (final_line o pb e (o_mul O (o_dec O 1000 0) el) p n rk). split; [reflexivity|].
      split; [apply num_nil|]. cbn [so_prox]. split; [|split; [lia|exact F]].
      rewrite Nat.min_0_r. unfold nlines. destruct (is_iter _); reflexivity.
    - intros ln (n' & a & b & c & e' & f & ->).
      exists (if is_iter (p_display o) then [EvIterLine p n' a b c e' f] else []),
             (final_line o pb e (o_mul O (o_dec O 1000 0) el) p n rk).
      split; [reflexivity|]. split.
      { destruct (is_iter _); [apply num_cons|]; apply num_nil. }
      cbn [so_prox]. split; [|split; [lia|exact F]].
      rewrite Z.sub_diag. unfold nlines. destruct (is_iter _); reflexivity.
  Qed.

  Lemma pprox_log el E0 fuel : forall itol xk dx ri rk w n p,
    log_ok el fuel p (lg (pprox O o pb el E0 fuel itol xk dx ri rk w n p))
                     (snd (pprox O o pb el E0 fuel itol xk dx ri rk w n p)).
  Proof.
    induction fuel as [|fuel IH]; intros itol xk dx ri rk w n p; cbn [pprox].
    - apply exit_log. exact 0.
    - set (rk0 := pb_pnr pb xk).
      destruct (_ || _).
      + rewrite lg_bind, snd_bind. cbn [snd wlog]. unfold lg at 1; cbn [fst wlog].
        unfold iter_line at 1. apply (exit_log SUCCESS el E0 n p rk0 xk fuel). eauto 10.
      + rewrite lg_bind, snd_bind. cbn [snd wlog]. unfold lg at 1; cbn [fst wlog].
        unfold det_header. rewrite nd. cbn [app].
        rewrite lg_bind, snd_bind. cbn [snd wlift]. unfold lg at 1; cbn [fst wlift app].
        destruct (saturate O _ _ _) as [it|e|u] eqn:ES.
        2,3: exists (iter_line O o p n rk0 ri itol), []; split; [reflexivity|]; split;
             [unfold iter_line; destruct (is_iter _); [apply num_cons|]; apply num_nil|];
             split; [unfold iter_line, nlines; destruct (is_iter _); cbn; lia|reflexivity].
        rewrite lg_bind, snd_bind. cbn [snd wghost]. unfold lg at 1; cbn [fst wghost app].
        rewrite lg_bind, snd_bind, psub_log. cbn [app].
        destruct (snd (psub O o pb it _ xk dx ri rk0 n)) as [[[[[[E1 x1] d1] r1] k1] n1]|e|u].
        2,3: exists (iter_line O o p n rk0 ri itol), []; split; [reflexivity|]; split;
             [unfold iter_line; destruct (is_iter _); [apply num_cons|]; apply num_nil|];
             split; [unfold iter_line, nlines; destruct (is_iter _); cbn; lia|reflexivity].
        destruct (_ <=? _)%Z.
        * unfold iter_line at 1. apply exit_log. eauto 10.
        * rewrite lg_bind, snd_bind. rewrite lg_ghost. cbn [snd wghost app].
          destruct (if p_check_feas o then _ else _) as [w' fs].
          destruct (flag_of fs);
            try (unfold iter_line at 1; apply exit_log; eauto 10; fail).
          specialize (IH it x1 (pb_axpy pb (o_mone O) xk x1) r1 k1 w' n1 (p + 1)%Z).
          set (m := pprox O o pb el E0 fuel _ _ _ _ _ _ _ _) in *.
          destruct IH as (lines & rest & EL & NF & H).
          exists (iter_line O o p n rk0 ri itol ++ (if is_iter (p_display o) then lines else [])), rest.
          assert (LZ : is_iter (p_display o) = false -> lines = []).
          { intro NI. unfold nlines in H. rewrite NI in H.
            destruct (snd m) as [[out xx]|e|u]; [destruct H as (HL & _)|destruct H as (HL & _)|destruct H as (HL & _)];
              destruct lines; auto; cbn in HL; lia. }
          split.
          { rewrite EL. destruct (is_iter (p_display o)) eqn:NI; [apply app_assoc|].
            rewrite (LZ eq_refl), app_nil_r. reflexivity. }
          split.
          { unfold iter_line. destruct (is_iter (p_display o)) eqn:NI; [apply num_cons; exact NF|apply num_nil]. }
          assert (LL : length (iter_line O o p n rk0 ri itol ++ (if is_iter (p_display o) then lines else [])) =
                       if is_iter (p_display o) then S (length lines) else 0).
          { unfold iter_line. destruct (is_iter _); reflexivity. }
          rewrite LL. unfold nlines in *.
          destruct (snd m) as [[out xx]|e|u]; destruct H as (HL & HR).
          -- destruct HR as [HR HF]. split; [|split; [lia|exact HF]].
             destruct (is_iter _); [|reflexivity]. rewrite HL. lia.
          -- split; [|exact HR]. destruct (is_iter _); lia.
          -- split; [|exact HR]. destruct (is_iter _); lia.
  Qed.
End Log.

Section Prints.
  Context {T : Type} (O : Ops T) (LA : LinAlg T).
  Hypothesis zero_eq : o_eqb O (o_zero O) (o_zero O) = true.
  Context {D : Type} {DI : DataI T D} {d : D} {nz nl nv : nat}
          {o : params T} {x : var T} {el : T} {r : solve_result T}.
  Hypothesis call : solve_call O LA D DI d nz nl nv o x el r.
  Notation tol := (tolerance O DI d o).

  Lemma call_log : is_det (p_display o) = false ->
    exists lines rest,
      sr_log r = (match sr_out r, o_ltb O (p_inner_tol_max o) (p_inner_tol_min o) with
                  | Throw _, true => [] | _, _ => iter_header o end) ++ lines ++ rest /\
      numbered_from 0 lines /\
      match sr_out r with
      | Ok out => length lines = nlines o (Nat.min (Z.to_nat (so_prox out) + 1) (Z.to_nat (p_max_prox o))) /\
          (if ge_final (p_display o) then exists ev, rest = [ev] /\ summary_of O o tol el out ev else rest = [])
      | _ => length lines <= nlines o (Z.to_nat (p_max_prox o)) /\ rest = []
      end.
  Proof.
    intro nd. destruct (call_desc_ex O LA zero_eq _ _ _ _ _ _ _ _ _ _ call) as (pinit & pst & stale & w & CD).
    rewrite (cd_run _ _ _ _ _ _ _ _ _ _ _ _ _ _ CD).
    set (pb := prob_of O DI d nz nl nv pinit pst o).
    unfold psolve. set (E0 := rsd_norm O _).
    unfold saturate. destruct (o_ltb O (p_inner_tol_max o) (p_inner_tol_min o)) eqn:EI.
    - exists [], []. cbn. split; [reflexivity|]. split; [apply num_nil|]. split; [lia|reflexivity].
    - set (it := smax O _ _).
      pose proof (pprox_log O o pb nd el E0 (Z.to_nat (p_max_prox o)) it (pstart pb x)
        (pones O pb nz nl nv) stale (pb_pnr pb (pstart pb x)) w 0%Z 0%Z) as H.
      cbn [wbind wlift wlog app].
      destruct (pprox O o pb el E0 (Z.to_nat (p_max_prox o)) it (pstart pb x) (pones O pb nz nl nv) stale
                 (pb_pnr pb (pstart pb x)) w 0%Z 0%Z) as [[l t] res].
      cbn [app]. unfold lg in H; cbn [fst snd] in H. destruct H as (lines & rest & EL & NF & H).
      destruct res as [[out xx]|e|u]; cbn [presult sr_log sr_out]; exists lines, rest; rewrite EL.
      + destruct H as (H1 & H2 & H3). rewrite Z.sub_0_r in H1. auto.
      + auto.
      + auto.
  Qed.

  (* OFF prints nothing. *)
  Theorem C16_off_silent : p_display o = OFF -> sr_log r = [].
  Proof.
    intro E. destruct call_log as (lines & rest & EL & _ & H); [rewrite E; reflexivity|].
    unfold nlines in H. rewrite E in H. cbn in H.
    assert (lines = [] /\ rest = []) as [-> ->].
    { destruct (sr_out r); destruct H as [H1 H2]; (split; [destruct lines; auto; cbn in H1; lia|exact H2]). }
    rewrite EL. unfold iter_header. rewrite E. cbn.
    destruct (sr_out r), (o_ltb O (p_inner_tol_max o) (p_inner_tol_min o)); reflexivity.
  Qed.

  (* FINAL prints exactly the summary on a normal return, nothing when an exception is thrown. *)
  Theorem C16_final_summary : p_display o = FINAL ->
    match sr_out r with
    | Ok out => exists ev, sr_log r = [ev] /\ summary_of O o tol el out ev
    | _ => sr_log r = []
    end.
  Proof.
    intro E. destruct call_log as (lines & rest & EL & _ & H); [rewrite E; reflexivity|].
    unfold nlines in H. rewrite E in H. cbn in H. unfold iter_header in EL. rewrite E in EL. cbn in EL.
    destruct (sr_out r) as [out|e|u].
    - destruct H as (H1 & ev & -> & H2). destruct lines; [|discriminate].
      exists ev. split; [|exact H2]. rewrite EL. destruct (o_ltb O (p_inner_tol_max o) (p_inner_tol_min o)); reflexivity.
    - destruct H as (H1 & ->). destruct lines; [|cbn in H1; lia]. rewrite EL. destruct (o_ltb O (p_inner_tol_max o) (p_inner_tol_min o)); reflexivity.
    - destruct H as (H1 & ->). destruct lines; [|cbn in H1; lia]. rewrite EL. destruct (o_ltb O (p_inner_tol_max o) (p_inner_tol_min o)); reflexivity.
  Qed.

  (* ITER prints a header, one numbered line per proximal iterate examined, and the summary. *)
  Theorem C16_iter_lines : p_display o = ITER -> forall out, sr_out r = Ok out ->
    exists lines ev, sr_log r = EvIterHeader :: lines ++ [ev] /\ numbered_from 0 lines /\
      length lines = Nat.min (Z.to_nat (so_prox out) + 1) (Z.to_nat (p_max_prox o)) /\
      summary_of O o tol el out ev.
  Proof.
    intros E out EO. destruct call_log as (lines & rest & EL & NF & H); [rewrite E; reflexivity|].
    unfold nlines in H. rewrite E, EO in H. cbn in H. unfold iter_header in EL. rewrite E, EO in EL. cbn in EL.
    destruct H as (H1 & ev & -> & H2). eauto 10.
  Qed.

  (* ---------------------------------------------------------------- C47 *)
  (* the tolerance shown in the summary is the one the convergence test uses (C08) *)
  Theorem C47_printed_tolerance : p_display o <> OFF -> p_display o <> ITER_DETAILED ->
    forall out, sr_out r = Ok out ->
    exists pre e ms p pm n nm a b c,
      sr_log r = pre ++ [EvFinal e ms p pm n nm a b c
        (o_add O (p_abs_tol o) (o_mul O (p_rel_tol o) (o_add O (o_one O) (di_fnorm DI d))))].
  Proof.
    intros N1 N2 out EO. destruct call_log as (lines & rest & EL & NF & H).
    { destruct (p_display o); auto. congruence. }
    rewrite EO in H, EL. destruct H as (_ & H).
    replace (ge_final (p_display o)) with true in H by (destruct (p_display o); auto; congruence).
    destruct H as (ev & -> & (rk & _ & ->)).
    exists (iter_header o ++ lines). rewrite EL. do 9 eexists. rewrite <- app_assoc.
    destruct (o_ltb O (p_inner_tol_max o) (p_inner_tol_min o)); reflexivity.
  Qed.
End Prints.
