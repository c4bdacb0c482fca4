(* C14, restricted: the dense solver on doubles does not depend on its history as long as the numbers it finds
   in the three work vectors of the feasibility check are finite. *)
From Verif Require Export PropsSim.
From Verif Require Import Examples.
From Coq Require Import Floats.SpecFloat.
Local Open Scope nat_scope.

(* arithmetic in which 0*y + p does not depend on a finite y, except for the sign of a zero, and that sign
   is invisible to |.|, to the maximum of a vector and to <= *)
Record stale_arith {T} (O : Ops T) (fin : T -> Prop) (sim : T -> T -> Prop) : Prop := {
  sa_refl : forall x, sim x x;
  sa_zero : forall p a b, fin a -> fin b ->
    sim (o_add O (o_mul O (o_one O) p) (o_mul O (o_zero O) a)) (o_add O (o_mul O (o_one O) p) (o_mul O (o_zero O) b));
  sa_abs : forall a b, sim a b -> o_abs O a = o_abs O b;
  sa_max : forall u v, Forall2 sim u v -> sim (o_maxc O u) (o_maxc O v);
  sa_leb : forall a b c, sim a b -> o_leb O a c = o_leb O b c }.

(* the work vectors of a FBstabDense object: what the feasibility check of the last Solve left, or what the
   allocator left when the object was created *)
Definition work_vectors {T} (s : dense_solver T) : list T :=
  ff_tz (a_ff (ds_alg s)) ++ ff_tl (a_ff (ds_alg s)) ++ ff_tv (a_ff (ds_alg s)).

Section Stale.
  Context {T : Type} {O : Ops T} {fin : T -> Prop} {sim : T -> T -> Prop}.
  Hypothesis SA : stale_arith O fin sim.
  (* equal, or all finite *)
  Definition alike (u v : vec T) : Prop := u = v \/ (Forall fin u /\ Forall fin v).
  Definition ws_alike (w1 w2 : ws T) : Prop :=
    let '(a, b, c) := w1 in let '(a', b', c') := w2 in alike a a' /\ alike b b' /\ alike c c'.

  Lemma Forall2_refl u : Forall2 sim u u.
  Proof. induction u; constructor; [apply (sa_refl _ _ _ SA)|assumption]. Qed.
  Lemma Forall2_tab n f g : (forall i, i < n -> sim (f i) (g i)) -> Forall2 sim (tab n f) (tab n g).
  Proof.
    intro H. unfold tab. assert (K : forall l, (forall i, In i l -> i < n) -> Forall2 sim (map f l) (map g l)).
    { induction l as [|i l IH]; intro L; constructor; [apply H, L; left; reflexivity|apply IH; intros; apply L; right; assumption]. }
    apply K. intros i Hi. apply in_seq in Hi. lia.
  Qed.
  Lemma gemv_alike M x y y' r : dense_gemv O M x (o_one O) (o_zero O) y = Ok r -> length y = length y' -> alike y y' ->
    exists r', dense_gemv O M x (o_one O) (o_zero O) y' = Ok r' /\ Forall2 sim r r'.
  Proof.
    intros E L [<-|[F1 F2]]; [exists r; split; [exact E|apply Forall2_refl]|].
    unfold dense_gemv in *. rewrite <- L. destruct ((mc M =? length x) && (mr M =? length y)) eqn:C; cbn [ub_unless rbind] in *; [|discriminate].
    injection E as <-. eexists. split; [reflexivity|]. apply Forall2_tab. intros i Hi.
    apply andb_prop in C. destruct C as [_ C]. apply Nat.eqb_eq in C.
    apply (sa_zero _ _ _ SA); [apply (proj1 (Forall_forall _ _) F1)|apply (proj1 (Forall_forall _ _) F2)]; apply nth_In; lia.
  Qed.
  Lemma vinf_alike u v : Forall2 sim u v -> vinf O u = vinf O v.
  Proof.
    intro F. assert (E : map (o_abs O) u = map (o_abs O) v) by (induction F; cbn; [reflexivity|f_equal; [apply (sa_abs _ _ _ SA); assumption|assumption]]).
    unfold vinf. rewrite E. destruct u, v; try reflexivity; inversion F.
  Qed.
  Lemma ws_refl w : ws_alike w w.
  Proof. destruct w as [[a b] c]. repeat split; left; reflexivity. Qed.

  Lemma feas_alike d nz nl nv tol u1 u2 y : dense_ok d nz nl nv -> ws_ok nz nl nv u1 -> ws_ok nz nl nv u2 -> ws_alike u1 u2 -> var_ok nz nl nv y ->
    let f u := pfeas O (denseDI O) d nz nl nv tol u y in snd (f u1) = snd (f u2) /\ ws_alike (fst (f u1)) (fst (f u2)).
  Proof.
    intros DO H1 H2 A Hy. cbv zeta. destruct u1 as [[a b] c], u2 as [[a' b'] c']. destruct A as (A1 & A2 & A3).
    destruct H1 as (L1 & L2 & L3), H2 as (M1 & M2 & M3).
    pose proof (dense_data_ok O d _ _ _ DO) as DK. destruct Hy as (Y1 & _).
    unfold pfeas. cbn [fst snd]. split; [|apply ws_refl]. f_equal.
    unfold gA, gG, gH. cbn [denseDI di_gemvA di_gemvG di_gemvH].
    assert (K : forall M w w', mc M = nz -> mr M = length w -> length w = length w' -> alike w w' -> exists r r',
      dense_gemv O M (v_z y) (o_one O) (o_zero O) w = Ok r /\ dense_gemv O M (v_z y) (o_one O) (o_zero O) w' = Ok r' /\ Forall2 sim r r').
    { intros M w w' C1 C2 C3 AL. assert (E : exists r, dense_gemv O M (v_z y) (o_one O) (o_zero O) w = Ok r).
      { unfold dense_gemv. rewrite C1, C2, Y1, !Nat.eqb_refl. cbn. eexists. reflexivity. }
      destruct E as [r E]. destruct (gemv_alike _ _ _ _ _ E C3 AL) as (r' & E' & F). eauto. }
    destruct DO as [Hr Hc Gr Gc Ar Ac Hf Hh Hb].
    destruct (K (dd_A d) c c') as (r1 & r1' & -> & -> & F1); try congruence.
    destruct (K (dd_G d) b b') as (r2 & r2' & -> & -> & F2); try congruence.
    destruct (K (dd_H d) a a') as (r3 & r3' & -> & -> & F3); try congruence.
    cbn [unres]. unfold dual_bad. rewrite (vinf_alike _ _ F2), (vinf_alike _ _ F3).
    rewrite (sa_leb _ _ _ SA _ _ _ (sa_max _ _ _ SA _ _ F1)). reflexivity.
  Qed.

  Context (LA : LinAlg T).
  (* two solvers of the same sizes with the same options but different pasts, and work vectors that are
     finite in both: the same answers *)
  Theorem C14_finite_history : forall nz nl nv s1 s2 qp k1 k2 x1 x2 el,
    dense_reach O LA nz nl nv s1 -> dense_reach O LA nz nl nv s2 ->
    Forall fin (work_vectors s1) -> Forall fin (work_vectors s2) ->
    same_but_display (ds_options s1) (ds_options s2) ->
    v_z x1 = v_z x2 -> v_l x1 = v_l x2 -> v_v x1 = v_v x2 ->
    y_fits k1 x1 (Z.to_nat nv) -> y_fits k2 x2 (Z.to_nat nv) ->
    same_answer (snd (FBstabDense_Solve O LA s1 qp k1 x1 el)) (snd (FBstabDense_Solve O LA s2 qp k2 x2 el)).
  Proof.
    intros nz nl nv s1 s2 qp k1 k2 x1 x2 el R1 R2 F1 F2. apply (dense_history_rel O LA nz nl nv s1 s2 qp k1 k2 x1 x2 el ws_alike); try assumption.
    intros _. split; [|intros d DO u1 u2 y tol H1 H2 A Hy; apply feas_alike; assumption].
    unfold work_vectors in F1, F2. rewrite !Forall_app in F1, F2. destruct F1 as (P1 & P2 & P3), F2 as (Q1 & Q2 & Q3).
    unfold ws_of. repeat split; right; split; assumption.
  Qed.
  (* in particular the content of uninitialised memory does not matter as long as it is finite *)
  Theorem C14_finite_memory : forall g1 g2 nz nl nv s1 s2 qp k x el,
    FBstabDense_new O g1 nz nl nv = Ok s1 -> FBstabDense_new O g2 nz nl nv = Ok s2 ->
    Forall fin (work_vectors s1) -> Forall fin (work_vectors s2) -> y_fits k x (Z.to_nat nv) ->
    same_answer (snd (FBstabDense_Solve O LA s1 qp k x el)) (snd (FBstabDense_Solve O LA s2 qp k x el)).
  Proof.
    intros g1 g2 nz nl nv s1 s2 qp k x el N1 N2 F1 F2 Y.
    apply (C14_finite_history nz nl nv); try assumption; try reflexivity.
    - eapply dr_new. exact N1.
    - eapply dr_new. exact N2.
    - destruct (dense_new_inv O _ _ _ _ _ N1) as [_ ->]. destruct (dense_new_inv O _ _ _ _ _ N2) as [_ ->]. exists (p_display (DefaultParameters O)). reflexivity.
  Qed.
End Stale.

(* ---------- IEEE binary64 ---------- *)
Definition finite_sf (x : F64) : bool := match x with S754_zero _ | S754_finite _ _ _ => true | _ => false end.
Definition finite_F (x : F64) : Prop := finite_sf x = true.
(* the same number, where +0 and -0 count as the same *)
Definition same_num (a b : F64) : Prop := a = b \/ exists s s', a = S754_zero s /\ b = S754_zero s'.
Lemma F_add_zero p s s' : same_num (Fadd p (S754_zero s)) (Fadd p (S754_zero s')).
Proof. destruct p as [t|t| |t m e]; try (left; reflexivity). right. destruct t, s, s'; cbn; eauto. Qed.
Lemma F_ltb_num a b c d : same_num a b -> same_num c d -> SFltb a c = SFltb b d.
Proof. intros [<-|(s & s' & -> & ->)] [<-|(t & t' & -> & ->)]; try reflexivity; destruct a || destruct c || idtac; try reflexivity. Qed.
Lemma stale_F : stale_arith Fops finite_F same_num.
Proof.
  constructor.
  - intro x. left. reflexivity.
  - intros p a b Fa Fb. cbn [o_add o_mul o_one o_zero Fops].
    assert (Z0 : forall a, finite_F a -> exists s, Fmul (S754_zero false) a = S754_zero s).
    { intros [s|s| |s m e] F; try discriminate F; cbn; eauto. }
    destruct (Z0 a Fa) as [s ->]. destruct (Z0 b Fb) as [s' ->]. apply F_add_zero.
  - intros a b [<-|(s & s' & -> & ->)]; reflexivity.
  - intros u v F. cbn [o_maxc Fops]. destruct F as [|a b u v Hab F]; [left; reflexivity|]. cbn [Fmaxc]. revert a b Hab.
    induction F as [|c d u v Hcd F IH]; intros a b Hab; [exact Hab|]. cbn [Fmaxc_acc].
    rewrite (F_ltb_num _ _ _ _ Hab Hcd). apply IH. destruct (SFltb b d); assumption.
  - intros a b c [<-|(s & s' & -> & ->)]; reflexivity.
Qed.
Theorem C14_doubles_finite_history : forall (LA : LinAlg F64) nz nl nv s1 s2 qp k1 k2 x1 x2 el,
  dense_reach Fops LA nz nl nv s1 -> dense_reach Fops LA nz nl nv s2 ->
  Forall finite_F (work_vectors s1) -> Forall finite_F (work_vectors s2) ->
  same_but_display (ds_options s1) (ds_options s2) ->
  v_z x1 = v_z x2 -> v_l x1 = v_l x2 -> v_v x1 = v_v x2 ->
  y_fits k1 x1 (Z.to_nat nv) -> y_fits k2 x2 (Z.to_nat nv) ->
  same_answer (snd (FBstabDense_Solve Fops LA s1 qp k1 x1 el)) (snd (FBstabDense_Solve Fops LA s2 qp k2 x2 el)).
Proof. exact (C14_finite_history stale_F). Qed.
Theorem C14_doubles_finite_memory : forall (LA : LinAlg F64) g1 g2 nz nl nv s1 s2 qp k x el,
  FBstabDense_new Fops g1 nz nl nv = Ok s1 -> FBstabDense_new Fops g2 nz nl nv = Ok s2 ->
  Forall finite_F (work_vectors s1) -> Forall finite_F (work_vectors s2) -> y_fits k x (Z.to_nat nv) ->
  same_answer (snd (FBstabDense_Solve Fops LA s1 qp k x el)) (snd (FBstabDense_Solve Fops LA s2 qp k x el)).
Proof. exact (C14_finite_memory stale_F). Qed.

(* a solver with memory full of 7s, and the same solver after solving the unbounded problem of the unit tests:
   both have finite work vectors, and these differ *)
Definition finiteb (s : dense_solver F64) : bool := forallb finite_sf (work_vectors s).
Lemma finiteb_ok s : finiteb s = true -> Forall finite_F (work_vectors s).
Proof. intro H. apply Forall_forall. intros x Hx. apply (proj1 (forallb_forall _ _) H x Hx). Qed.
Definition g7 : garbage F64 := mkGarbage (fun _ => Fint 7) (fun _ => Fint 7) (fun _ => Fint 7) (fun _ _ _ => Fint 7).
Example C14_example : exists s, FBstabDense_new Fops g7 2 0 4 = Ok s /\
  let s' := fst (FBstabDense_Solve Fops LAF s qp_unbounded Owned (fx_ [0;0] [] [0;0;0;0] [])%Z (Fint 0)) in
  Forall finite_F (work_vectors s) /\ Forall finite_F (work_vectors s') /\ ds_options s = ds_options s' /\ work_vectors s <> work_vectors s'.
Proof.
  assert (E : match FBstabDense_new Fops g7 2 0 4 with
    | Ok s => let s' := fst (FBstabDense_Solve Fops LAF s qp_unbounded Owned (fx_ [0;0] [] [0;0;0;0] [])%Z (Fint 0)) in
              finiteb s && finiteb s' && SFeqb (nth 0 (work_vectors s) (Fint 0)) (Fint 7) && negb (SFeqb (nth 0 (work_vectors s') (Fint 0)) (Fint 7))
    | _ => false end = true) by (vm_compute; reflexivity).
  destruct (FBstabDense_new Fops g7 2 0 4) as [s| |] eqn:EN; try discriminate.
  exists s. split; [reflexivity|]. cbv zeta in *. rewrite !andb_true_iff in E. destruct E as (((E1 & E2) & E3) & E4).
  set (s' := fst _) in *. split; [apply finiteb_ok; exact E1|]. split; [apply finiteb_ok; exact E2|].
  split.
  - unfold s'. assert (R1 : dense_reach Fops LAF 2 0 4 s) by (eapply dr_new; exact EN).
    destruct (dense_solve_inv Fops LAF 2 0 4 s qp_unbounded Owned (fx_ [0;0] [] [0;0;0;0] [])%Z (Fint 0)) as [_ ->]; [eapply dense_reach_inv; exact R1|exact I|reflexivity].
  - intro C. rewrite <- C, E3 in E4. discriminate E4.
Qed.
