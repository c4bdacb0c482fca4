(* C73: in exact arithmetic neither the order of the variables and constraints nor the sign in which a
   variable or an equality is written matters to Solve. *)
From Coq Require Import Permutation.
From Verif Require Export PropsEquiv.
Local Open Scope R_scope.

(* ---------- specification ---------- *)
(* p reorders 0..n-1; s: signs *)
Definition reorders (n : nat) (p : nat -> nat) : Prop :=
  (forall i, (i < n)%nat -> (p i < n)%nat) /\ (forall i j, (i < n)%nat -> (j < n)%nat -> p i = p j -> i = j).
Definition signs (n : nat) (s : nat -> R) : Prop := forall i, (i < n)%nat -> s i = 1 \/ s i = -1.
(* Variable i of P' is sz i times variable pz i of P, its equality k is sl k times equality pl k of P, and
   its inequality k is inequality pv k of P. *)
Record relabels (P P' : QP) (pz pl pv : nat -> nat) (sz sl : nat -> R) : Prop := {
  rl_nz : n_z P' = n_z P; rl_nl : n_l P' = n_l P; rl_nv : n_v P' = n_v P;
  rl_pz : reorders (n_z P) pz; rl_pl : reorders (n_l P) pl; rl_pv : reorders (n_v P) pv;
  rl_sz : signs (n_z P) sz; rl_sl : signs (n_l P) sl;
  rl_H : forall i j, (i < n_z P)%nat -> (j < n_z P)%nat -> cH P' i j = sz i * sz j * cH P (pz i) (pz j);
  rl_f : forall i, (i < n_z P)%nat -> cf P' i = sz i * cf P (pz i);
  rl_G : forall k j, (k < n_l P)%nat -> (j < n_z P)%nat -> cG P' k j = sl k * sz j * cG P (pl k) (pz j);
  rl_h : forall k, (k < n_l P)%nat -> ch P' k = sl k * ch P (pl k);
  rl_A : forall k j, (k < n_v P)%nat -> (j < n_z P)%nat -> cA P' k j = sz j * cA P (pv k) (pz j);
  rl_b : forall k, (k < n_v P)%nat -> cb P' k = cb P (pv k) }.
(* the same point in the two labellings *)
Definition moved (n : nat) (p : nat -> nat) (s : nat -> R) (u u' : vec R) : Prop :=
  length u = n /\ length u' = n /\ forall i, (i < n)%nat -> rg u' i = s i * rg u (p i).
Definition same_sign (k : nat) : R := 1.
Definition same_point (P : QP) (pz pl pv : nat -> nat) (sz sl : nat -> R) (x x' : var R) : Prop :=
  moved (n_z P) pz sz (v_z x) (v_z x') /\ moved (n_l P) pl sl (v_l x) (v_l x') /\ moved (n_v P) pv same_sign (v_v x) (v_v x').

(* ---------- sums and maxima over a reordering ---------- *)
Lemma reorders_perm n p : reorders n p -> Permutation (map p (seq 0 n)) (seq 0 n).
Proof.
  intros [H1 H2]. apply NoDup_Permutation_bis.
  - assert (K : forall l, NoDup l -> (forall i, In i l -> (i < n)%nat) -> NoDup (map p l)).
    { induction l as [|a l IH]; intros N B; cbn; [constructor|]. inversion N as [|? ? N1 N2]; subst. constructor.
      - intro I. apply in_map_iff in I. destruct I as (b & E & I). apply N1.
        rewrite <- (H2 b a); [exact I|apply B; right; exact I|apply B; left; reflexivity|exact E].
      - apply IH; [exact N2|]. intros i Hi. apply B. right. exact Hi. }
    apply K; [apply seq_NoDup|]. intros i Hi. apply in_seq in Hi. lia.
  - rewrite map_length. lia.
  - intros i Hi. apply in_map_iff in Hi. destruct Hi as (j & <- & Hj). apply in_seq in Hj. apply in_seq. specialize (H1 j). lia.
Qed.
Lemma rsum_list n f : rsum n f = fold_right Rplus 0 (map f (seq 0 n)).
Proof.
  revert f. induction n as [|n IH]; intro f; [reflexivity|]. rewrite rsum_first, IH. cbn [seq map fold_right]. f_equal.
  rewrite <- seq_shift, map_map. reflexivity.
Qed.
Lemma rsum_reorder n p f : reorders n p -> rsum n (fun i => f (p i)) = rsum n f.
Proof.
  intro H. rewrite !rsum_list. rewrite <- (map_map p f). apply reorders_perm, (Permutation_map f) in H.
  revert H. generalize (map f (map p (seq 0 n))) as l, (map f (seq 0 n)) as l'. intros l l' H.
  induction H as [|x l l' H IH|x y l|l l' l'' H1 IH1 H2 IH2]; cbn [fold_right]; try rewrite IH; try rewrite IH1; auto. ring.
Qed.
Lemma reorders_onto n p : reorders n p -> forall j, (j < n)%nat -> exists i, (i < n)%nat /\ p i = j.
Proof.
  intros H j Hj. apply reorders_perm in H. assert (I : In j (map p (seq 0 n))).
  { eapply Permutation_in; [apply Permutation_sym; exact H|]. apply in_seq. lia. }
  apply in_map_iff in I. destruct I as (i & E & I). apply in_seq in I. exists i. split; [lia|exact E].
Qed.

Lemma sign_sq n s i : signs n s -> (i < n)%nat -> s i * s i = 1.
Proof. intros H Hi. destruct (H i Hi) as [-> | ->]; ring. Qed.
Lemma sign_abs n s i a : signs n s -> (i < n)%nat -> Rabs (s i * a) = Rabs a.
Proof. intros H Hi. rewrite Rabs_mult. destruct (H i Hi) as [-> | ->]; [rewrite Rabs_R1|rewrite Rabs_left by lra]; ring. Qed.
Lemma same_signs n : signs n same_sign. Proof. intros i _. left. reflexivity. Qed.

Section Moved.
  Context {n : nat} {p : nat -> nat} {s : nat -> R}.
  Hypothesis Hp : reorders n p.
  Hypothesis Hs : signs n s.
  Lemma moved_norm u u' : moved n p s u u' -> vnorm Rops u' = vnorm Rops u.
  Proof.
    intros (L & L' & E). unfold vnorm. cbn [o_sqrt Rops]. f_equal. rewrite !sqnorm_rsum, L, L'.
    rewrite <- (rsum_reorder n p (fun i => rg u i * rg u i) Hp). apply rsum_ext. intros i Hi. rewrite E by exact Hi.
    pose proof (sign_sq _ _ _ Hs Hi). replace (s i * rg u (p i) * (s i * rg u (p i))) with (s i * s i * (rg u (p i) * rg u (p i))) by ring.
    rewrite H. ring.
  Qed.
  Lemma moved_dot u u' w w' : moved n p s u u' -> moved n p s w w' -> vdot Rops u' w' = vdot Rops u w.
  Proof.
    intros (L & L' & E) (M & M' & F). unfold vdot. cbn [o_dot Rops]. rewrite !Rdot_rsum by congruence. rewrite L, L'.
    rewrite <- (rsum_reorder n p (fun i => rg u i * rg w i) Hp). apply rsum_ext. intros i Hi. rewrite E, F by exact Hi.
    pose proof (sign_sq _ _ _ Hs Hi). replace (s i * rg u (p i) * (s i * rg w (p i))) with (s i * s i * (rg u (p i) * rg w (p i))) by ring.
    rewrite H. ring.
  Qed.
  Lemma moved_inf u u' : moved n p s u u' -> vinf Rops u' = vinf Rops u.
  Proof.
    intros (L & L' & E). apply Rle_antisym; apply vinf_le; try apply vinf_nonneg.
    - intros i Hi. rewrite L' in Hi. rewrite E, (sign_abs n) by assumption. apply vinf_ge. rewrite L. apply Hp. exact Hi.
    - intros j Hj. rewrite L in Hj. destruct (reorders_onto n p Hp j Hj) as (i & Hi & <-).
      rewrite <- (sign_abs n s i _ Hs Hi), <- E by exact Hi. apply vinf_ge. rewrite L'. exact Hi.
  Qed.
  Lemma moved_axpy a u u' w w' : moved n p s u u' -> moved n p s w w' -> moved n p s (vaxpy Rops a u w) (vaxpy Rops a u' w').
  Proof.
    intros (L & L' & E) (M & M' & F). split; [|split].
    - autorewrite with vlen. exact M.
    - autorewrite with vlen. exact M'.
    - intros i Hi. unfold vaxpy. rewrite M, M', !(vget_tab Rops) by (try apply Hp; exact Hi). rewrite E, F by exact Hi. cbn [o_add o_mul Rops]. ring.
  Qed.
  Lemma moved_sub u u' w w' : moved n p s u u' -> moved n p s w w' -> moved n p s (vsub Rops u w) (vsub Rops u' w').
  Proof.
    intros (L & L' & E) (M & M' & F). split; [|split].
    - autorewrite with vlen. exact L.
    - autorewrite with vlen. exact L'.
    - intros i Hi. unfold vsub. rewrite L, L', !(vget_tab Rops) by (try apply Hp; exact Hi). rewrite E, F by exact Hi. cbn [o_sub Rops]. ring.
  Qed.
End Moved.
Lemma moved_max n p u u' : reorders n p -> moved n p same_sign u u' -> Rmaxc u' = Rmaxc u.
Proof.
  intros Hp (L & L' & E). destruct n as [|n].
  - apply length_zero_iff_nil in L, L'. subst. reflexivity.
  - apply Rle_antisym; apply Rmaxc_le; try lia.
    + intros i Hi. rewrite L' in Hi. rewrite E by exact Hi. unfold same_sign. rewrite Rmult_1_l. apply Rmaxc_ge. rewrite L. apply Hp. exact Hi.
    + intros j Hj. rewrite L in Hj. destruct (reorders_onto _ p Hp j Hj) as (i & Hi & <-).
      replace (rg u (p i)) with (rg u' i) by (rewrite E by exact Hi; unfold same_sign; ring). apply Rmaxc_ge. rewrite L'. exact Hi.
Qed.
(* a product with a relabelled matrix *)
Lemma times_moved n p s M M' t k i x x' : reorders n p -> signs n s ->
  (forall j, (j < n)%nat -> M' i j = t * s j * M k (p j)) -> (forall j, (j < n)%nat -> x' j = s j * x (p j)) ->
  times n M' x' i = t * times n M x k.
Proof.
  intros Hp Hs HM Hx. unfold times. rewrite <- (rsum_reorder n p (fun j => M k j * x j) Hp), <- rsum_scal.
  apply rsum_ext. intros j Hj. rewrite HM, Hx by exact Hj. pose proof (sign_sq _ _ _ Hs Hj) as E.
  replace (t * s j * M k (p j) * (s j * x (p j))) with (s j * s j * (t * (M k (p j) * x (p j)))) by ring. rewrite E. ring.
Qed.
Lemma ttimes_moved n p s M M' t k i x x' : reorders n p -> signs n s ->
  (forall j, (j < n)%nat -> M' j i = s j * t * M (p j) k) -> (forall j, (j < n)%nat -> x' j = s j * x (p j)) ->
  ttimes n M' x' i = t * ttimes n M x k.
Proof.
  intros Hp Hs HM Hx. unfold ttimes. rewrite <- (rsum_reorder n p (fun j => M j k * x j) Hp), <- rsum_scal.
  apply rsum_ext. intros j Hj. rewrite HM, Hx by exact Hj. pose proof (sign_sq _ _ _ Hs Hj) as E.
  replace (s j * t * M (p j) k * (s j * x (p j))) with (s j * s j * (t * (M (p j) k * x (p j)))) by ring. rewrite E. ring.
Qed.

(* ---------- two runs related by a relation between points ---------- *)
Definition osim {T A B} (R : A -> B -> Prop) (m1 : W T A) (m2 : W T B) : Prop := rsim R (snd m1) (snd m2).
Lemma osim_bind {T A B A' B'} (R : A -> B -> Prop) (Q : A' -> B' -> Prop) (m1 : W T A) (m2 : W T B) f g :
  osim R m1 m2 -> (forall a b, R a b -> osim Q (f a) (g b)) -> osim Q (wbind m1 f) (wbind m2 g).
Proof.
  destruct m1 as [[l1 t1] r1], m2 as [[l2 t2] r2]. unfold osim. cbn [snd]. intros R0 HS. cbn [wbind].
  destruct r1 as [a|e|u], r2 as [b|e'|u']; cbn in R0; try contradiction; try exact R0.
  specialize (HS _ _ R0). destruct (f a) as [[la ta] ra], (g b) as [[lb tb] rb]. exact HS.
Qed.
Lemma osim_ret {T A B} (R : A -> B -> Prop) a b : R a b -> osim R (@wret T A a) (@wret T B b).
Proof. intro H. exact H. Qed.
Lemma osim_log {T} l1 l2 : osim eq (@wlog T l1) (@wlog T l2). Proof. reflexivity. Qed.
Lemma osim_ghost {T} (g g' : ghost T) : osim eq (wghost g) (wghost g'). Proof. reflexivity. Qed.
Lemma osim_lift {T A B} (R : A -> B -> Prop) r1 r2 : rsim R r1 r2 -> osim R (@wlift T A r1) (@wlift T B r2).
Proof. intro H. exact H. Qed.

Section RelSim.
  Context {T : Type} (O : Ops T) (o : params T) (dl : display) (pb1 pb2 : prob T).
  Context (V : var T -> var T -> Prop) (wrel : ws T -> ws T -> Prop).
  Notation o2 := (with_display o dl).
  Notation nm := (rsd_norm O).
  Record prob_rel : Prop := {
    re_pnr : forall x x', V x x' -> nm (pb_pnr pb1 x) = nm (pb_pnr pb2 x');
    re_inner : forall x x' b b', V x x' -> V b b' -> nm (pb_inner pb1 x b) = nm (pb_inner pb2 x' b');
    re_newton : forall x x' b b', V x x' -> V b b' ->
      rsim V (pb_newton pb1 x b (rsd_neg O (pb_inner pb1 x b))) (pb_newton pb2 x' b' (rsd_neg O (pb_inner pb2 x' b')));
    re_axpy : forall a x x' y y', V x x' -> V y y' -> V (pb_axpy pb1 a x y) (pb_axpy pb2 a x' y');
    re_proj : forall x x', V x x' -> V (proj_duals O x) (proj_duals O x');
    re_norm : forall x x', V x x' -> var_norm O x = var_norm O x';
    re_feas : forall w1 w2 x x', wrel w1 w2 -> V x x' ->
      snd (pb_feas pb1 w1 x) = snd (pb_feas pb2 w2 x') /\ wrel (fst (pb_feas pb1 w1 x)) (fst (pb_feas pb2 w2 x'));
    re_combo : pb_combo pb1 = pb_combo pb2 }.
  Hypothesis HS : prob_rel.
  Lemma nm_merit r r' : nm r = nm r' -> rsd_merit O r = rsd_merit O r'.
  Proof. intro E. unfold rsd_merit. rewrite E. reflexivity. Qed.

  Lemma pls_rel fuel : forall j t m0 cm x x' b b' dx dx' ri ri', V x x' -> V b b' -> V dx dx' ->
    osim (fun a c => fst a = fst c) (pls O o pb1 fuel j t m0 cm x b dx ri) (pls O o2 pb2 fuel j t m0 cm x' b' dx' ri').
  Proof.
    induction fuel as [|fuel IH]; intros j t m0 cm x x' b b' dx dx' ri ri' Hx Hb Hd; cbn [pls].
    - apply osim_ret. reflexivity.
    - assert (Hp : V (pb_axpy pb1 t dx x) (pb_axpy pb2 t dx' x')) by (apply (re_axpy HS); assumption).
      rewrite (nm_merit _ _ (re_inner HS _ _ _ _ Hp Hb)). cbn [p_eta p_beta with_display].
      eapply osim_bind; [apply osim_ghost|]. intros _ _ _. destruct (o_leb O _ _); [apply osim_ret; reflexivity|].
      apply IH; assumption.
  Qed.
  Definition st_r (a c : T * var T * var T * rsd T * list T) : Prop :=
    let '(t, x, dx, ri, m) := a in let '(t', x', dx', ri', m') := c in m = m' /\ V x x'.
  Lemma pstep_rel x x' b b' m : V x x' -> V b b' ->
    osim st_r (pstep O o pb1 x b (pb_inner pb1 x b) m) (pstep O o2 pb2 x' b' (pb_inner pb2 x' b') m).
  Proof.
    intros Hx Hb. unfold pstep. eapply osim_bind; [apply osim_lift; apply (re_newton HS); assumption|]. intros dx dx' Hd.
    eapply osim_bind; [apply osim_ghost|]. intros _ _ _.
    rewrite (nm_merit _ _ (re_inner HS _ _ _ _ Hx Hb)). cbn [p_nonmonotone p_max_ls with_display].
    eapply osim_bind; [apply pls_rel; assumption|].
    intros [[[t j] acc] ri] [[[t' j'] acc'] ri'] E. cbn in E. injection E as <- <- <-.
    eapply osim_bind; [apply osim_ghost|]. intros _ _ _. apply osim_ret. unfold st_r. split; [reflexivity|].
    apply (re_axpy HS); assumption.
  Qed.
  Definition in_r (a c : T * var T * var T * rsd T * rsd T * Z) : Prop :=
    let '(Eo, x, dx, ri, rk, n) := a in let '(Eo', x', dx', ri', rk', n') := c in
    Eo = Eo' /\ V x x' /\ nm rk = nm rk' /\ n = n'.
  Lemma pinner_rel fuel : forall i t t' Eo tol Ek x x' b b' dx dx' ri ri' rk rk' n m, V x x' -> V b b' -> nm rk = nm rk' ->
    osim in_r (pinner O o pb1 fuel i t Eo tol Ek x b dx ri rk n m) (pinner O o2 pb2 fuel i t' Eo tol Ek x' b' dx' ri' rk' n m).
  Proof.
    induction fuel as [|fuel IH]; intros i t t' Eo tol Ek x x' b b' dx dx' ri ri' rk rk' n m Hx Hb Hk; cbn [pinner].
    - apply osim_ret. unfold in_r. auto.
    - pose proof (re_pnr HS _ _ Hx) as N1. pose proof (re_inner HS _ _ _ _ Hx Hb) as N2. rewrite N1, N2.
      cbn [p_inner_tol_min p_max_newton with_display].
      eapply osim_bind; [apply osim_ghost|]. intros _ _ _. destruct (_ || _).
      + eapply osim_bind; [apply osim_log|]. intros _ _ _. apply osim_ret. unfold in_r. auto.
      + eapply osim_bind; [apply osim_log|]. intros _ _ _. destruct (_ <=? _)%Z.
        * apply osim_ret. unfold in_r. auto.
        * eapply osim_bind; [apply pstep_rel; assumption|].
          intros [[[[t1 x1] d1] r1] m1] [[[[t2 x2] d2] r2] m2] (<- & H1). apply IH; assumption.
  Qed.
  Lemma psub_rel tol Ek x x' dx dx' ri ri' rk rk' n : V x x' -> nm rk = nm rk' ->
    osim in_r (psub O o pb1 tol Ek x dx ri rk n) (psub O o2 pb2 tol Ek x' dx' ri' rk' n).
  Proof.
    intros Hx Hk. unfold psub. cbn [p_max_inner with_display].
    eapply osim_bind; [apply pinner_rel; assumption|].
    intros [[[[[E1 x1] d1] r1] k1] n1] [[[[[E2 x2] d2] r2] k2] n2] (<- & H1 & H2 & <-).
    eapply osim_bind; [apply osim_ghost|]. intros _ _ _. apply osim_ret. unfold in_r. auto using (re_proj HS).
  Qed.
  Lemma poutput_rel e el E0 n p rk rk' : nm rk = nm rk' -> osim eq (poutput O o pb1 e el E0 n p rk) (poutput O o2 pb2 e el E0 n p rk').
  Proof. intro E. unfold poutput. eapply osim_bind; [apply osim_log|]. intros _ _ _. apply osim_ret. rewrite E. reflexivity. Qed.

  Definition res_r (a c : solver_out T * var T) : Prop := fst a = fst c /\ V (snd a) (snd c).
  Ltac finish H := eapply osim_bind; [apply poutput_rel; H|]; intros a c <-; apply osim_ret; split; [reflexivity|].
  Lemma pprox_rel el E0 fuel : forall itol x x' dx dx' ri ri' rk rk' w1 w2 n p,
    V x x' -> var_norm O dx = var_norm O dx' -> nm rk = nm rk' -> wrel w1 w2 ->
    osim res_r (pprox O o pb1 el E0 fuel itol x dx ri rk w1 n p) (pprox O o2 pb2 el E0 fuel itol x' dx' ri' rk' w2 n p).
  Proof.
    induction fuel as [|fuel IH]; intros itol x x' dx dx' ri ri' rk rk' w1 w2 n p Hx Hd Hk Hw; cbn [pprox].
    - finish assumption. exact Hx.
    - pose proof (re_pnr HS _ _ Hx) as N1. rewrite N1, Hd, (re_combo HS).
      cbn [p_stall_tol p_delta p_inner_tol_min p_max_newton p_check_feas with_display]. destruct (_ || _).
      + eapply osim_bind; [apply osim_log|]. intros _ _ _. finish assumption. exact Hx.
      + eapply osim_bind; [apply osim_log|]. intros _ _ _.
        eapply osim_bind; [apply osim_lift; apply rsim_refl|]. intros it _ <-.
        eapply osim_bind; [apply osim_ghost|]. intros _ _ _.
        eapply osim_bind; [apply psub_rel; assumption|].
        intros [[[[[E1 x1] d1] r1] k1] n1] [[[[[E2 x2] d2] r2] k2] n2] (<- & H1 & H2 & <-).
        destruct (_ <=? _)%Z.
        * assert (Hr : V (if o_ltb O E1 (nm (pb_pnr pb2 x')) then x1 else x) (if o_ltb O E1 (nm (pb_pnr pb2 x')) then x2 else x'))
            by (destruct (o_ltb O _ _); assumption).
          finish ltac:(apply (re_pnr HS); exact Hr). exact Hr.
        * assert (Hd2 : V (pb_axpy pb1 (o_mone O) x x1) (pb_axpy pb2 (o_mone O) x' x2)) by (apply (re_axpy HS); assumption).
          eapply osim_bind; [apply osim_ghost|]. intros _ _ _. destruct (p_check_feas o).
          -- destruct (re_feas HS w1 w2 _ _ Hw Hd2) as (F1 & F2).
             destruct (pb_feas pb1 w1 _) as [w1' f1], (pb_feas pb2 w2 _) as [w2' f2]. cbn [fst snd] in F1, F2. subst f2.
             destruct f1; cbn [flag_of].
             { apply IH; try assumption. apply (re_norm HS). exact Hd2. }
             all: finish assumption; exact Hd2.
          -- cbn [flag_of]. apply IH; try assumption. apply (re_norm HS). exact Hd2.
  Qed.
  Lemma psolve_rel nz nl nv el st1 st2 w1 w2 (c c' : var T) :
    V (pstart pb1 c) (pstart pb2 c') -> var_norm O (pones O pb1 nz nl nv) = var_norm O (pones O pb2 nz nl nv) -> wrel w1 w2 ->
    osim res_r (psolve O o pb1 nz nl nv el st1 w1 c) (psolve O o2 pb2 nz nl nv el st2 w2 c').
  Proof.
    intros H1 H2 Hw. unfold psolve. pose proof (re_pnr HS _ _ H1) as N. rewrite N. cbn [p_inner_tol_min p_inner_tol_max p_max_prox with_display].
    eapply osim_bind; [apply osim_lift; apply rsim_refl|]. intros it _ <-.
    eapply osim_bind; [apply osim_log|]. intros _ _ _. apply pprox_rel; assumption.
  Qed.
End RelSim.

(* ---------- entries of the vectors Solve computes ---------- *)
Section Entries.
  Context {D : Type} {DI : DataI R D} {d : D} {P : QP}.
  Hypothesis EX : Explicit DI d P.
  Notation nz := (n_z P). Notation nl := (n_l P). Notation nv := (n_v P).
  Lemma e_f : length (af DI d 1 (vconst nz 0)) = nz /\ forall i, (i < nz)%nat -> rg (af DI d 1 (vconst nz 0)) i = cf P i.
  Proof.
    unfold af. destruct (ex_f _ _ _ EX 1 (vconst nz 0) (vconst_len _ _)) as (r & -> & L & E). split; [exact L|].
    intros i Hi. cbn [unres]. rewrite E, rg_const by exact Hi. ring.
  Qed.
  Lemma e_h : length (ah DI d 1 (vconst nl 0)) = nl /\ forall i, (i < nl)%nat -> rg (ah DI d 1 (vconst nl 0)) i = ch P i.
  Proof.
    unfold ah. destruct (ex_h _ _ _ EX 1 (vconst nl 0) (vconst_len _ _)) as (r & -> & L & E). split; [exact L|].
    intros i Hi. cbn [unres]. rewrite E, rg_const by exact Hi. ring.
  Qed.
  Lemma e_b : length (ab DI d 1 (vconst nv 0)) = nv /\ forall i, (i < nv)%nat -> rg (ab DI d 1 (vconst nv 0)) i = cb P i.
  Proof.
    unfold ab. destruct (ex_b _ _ _ EX 1 (vconst nv 0) (vconst_len _ _)) as (r & -> & L & E). split; [exact L|].
    intros i Hi. cbn [unres]. rewrite E, rg_const by exact Hi. ring.
  Qed.
  Lemma e_H x a b y : length x = nz -> length y = nz -> length (gH DI d x a b y) = nz /\
    forall i, (i < nz)%nat -> rg (gH DI d x a b y) i = a * times nz (cH P) (rg x) i + b * rg y i.
  Proof. intros Hx Hy. unfold gH. destruct (ex_H _ _ _ EX x a b y Hx Hy) as (r & -> & L & E). split; assumption. Qed.
  Lemma e_G x a b y : length x = nz -> length y = nl -> length (gG DI d x a b y) = nl /\
    forall i, (i < nl)%nat -> rg (gG DI d x a b y) i = a * times nz (cG P) (rg x) i + b * rg y i.
  Proof. intros Hx Hy. unfold gG. destruct (ex_G _ _ _ EX x a b y Hx Hy) as (r & -> & L & E). split; assumption. Qed.
  Lemma e_A x a b y : length x = nz -> length y = nv -> length (gA DI d x a b y) = nv /\
    forall i, (i < nv)%nat -> rg (gA DI d x a b y) i = a * times nz (cA P) (rg x) i + b * rg y i.
  Proof. intros Hx Hy. unfold gA. destruct (ex_A _ _ _ EX x a b y Hx Hy) as (r & -> & L & E). split; assumption. Qed.
  Lemma e_GT x y : length x = nl -> length y = nz -> length (gGT DI d x 1 1 y) = nz /\
    forall i, (i < nz)%nat -> rg (gGT DI d x 1 1 y) i = ttimes nl (cG P) (rg x) i + rg y i.
  Proof.
    intros Hx Hy. unfold gGT. destruct (ex_GT _ _ _ EX x 1 1 y (or_introl eq_refl) Hx Hy) as (r & -> & L & E). split; [exact L|].
    intros i Hi. cbn [unres]. rewrite E by exact Hi. ring.
  Qed.
  Lemma e_AT x y : length x = nv -> length y = nz -> length (gAT DI d x 1 1 y) = nz /\
    forall i, (i < nz)%nat -> rg (gAT DI d x 1 1 y) i = ttimes nv (cA P) (rg x) i + rg y i.
  Proof.
    intros Hx Hy. unfold gAT. destruct (ex_AT _ _ _ EX x 1 1 y Hx Hy) as (r & -> & L & E). split; [exact L|].
    intros i Hi. cbn [unres]. rewrite E by exact Hi. ring.
  Qed.
  Lemma e_stat_z x : var_ok nz nl nv x -> length (stat_z Rops DI d nz x) = nz /\
    forall i, (i < nz)%nat -> rg (stat_z Rops DI d nz x) i = lagr P (rg (v_z x)) (rg (v_l x)) (rg (v_v x)) i.
  Proof.
    intros (A & B & C & _). unfold stat_z. change (o_one Rops) with 1. change (o_zero Rops) with 0.
    destruct e_f as [L0 E0]. destruct (e_H (v_z x) 1 1 _ A L0) as [L1 E1]. destruct (e_GT (v_l x) _ B L1) as [L2 E2].
    destruct (e_AT (v_v x) _ C L2) as [L3 E3]. split; [exact L3|]. intros i Hi. rewrite E3, E2, E1, E0 by exact Hi. unfold lagr. ring.
  Qed.
  Lemma e_stat_l x : var_ok nz nl nv x -> length (stat_l Rops DI d nl x) = nl /\
    forall k, (k < nl)%nat -> rg (stat_l Rops DI d nl x) k = ch P k - times nz (cG P) (rg (v_z x)) k.
  Proof.
    intros (A & B & C & _). unfold stat_l. change (o_one Rops) with 1. change (o_zero Rops) with 0.
    destruct e_h as [L0 E0]. destruct (e_G (v_z x) (o_mone Rops) 1 _ A L0) as [L1 E1]. split; [exact L1|].
    intros i Hi. rewrite E1, E0 by exact Hi. cbn [o_mone o_opp o_one Rops]. ring.
  Qed.
End Entries.

(* ---------- the relabelled problem ---------- *)
Section Relabel.
  Context {P P' : QP} {pz pl pv : nat -> nat} {sz sl : nat -> R}.
  Hypothesis RL : relabels P P' pz pl pv sz sl.
  Notation nz := (n_z P). Notation nl := (n_l P). Notation nv := (n_v P).
  Let Pz := rl_pz _ _ _ _ _ _ _ RL.
  Let Pl := rl_pl _ _ _ _ _ _ _ RL.
  Let Pv := rl_pv _ _ _ _ _ _ _ RL.
  Let Sz := rl_sz _ _ _ _ _ _ _ RL.
  Let Sl := rl_sl _ _ _ _ _ _ _ RL.
  Definition mvz (f : nat -> R) (i : nat) : R := sz i * f (pz i).
  Definition mvl (f : nat -> R) (i : nat) : R := sl i * f (pl i).
  Definition mvv (f : nat -> R) (i : nat) : R := same_sign i * f (pv i).

  Lemma rH z z' i : (forall j, (j < nz)%nat -> z' j = mvz z j) -> (i < nz)%nat -> times nz (cH P') z' i = sz i * times nz (cH P) z (pz i).
  Proof. intros Hz Hi. apply (times_moved nz pz sz); auto. intros j Hj. apply (rl_H _ _ _ _ _ _ _ RL); assumption. Qed.
  Lemma rG z z' k : (forall j, (j < nz)%nat -> z' j = mvz z j) -> (k < nl)%nat -> times nz (cG P') z' k = sl k * times nz (cG P) z (pl k).
  Proof. intros Hz Hi. apply (times_moved nz pz sz); auto. intros j Hj. apply (rl_G _ _ _ _ _ _ _ RL); assumption. Qed.
  Lemma rA z z' k : (forall j, (j < nz)%nat -> z' j = mvz z j) -> (k < nv)%nat -> times nz (cA P') z' k = times nz (cA P) z (pv k).
  Proof.
    intros Hz Hi. rewrite (times_moved nz pz sz (cA P) (cA P') 1 (pv k) k z z'); auto; [ring|].
    intros j Hj. rewrite (rl_A _ _ _ _ _ _ _ RL) by assumption. ring.
  Qed.
  Lemma rGT l l' i : (forall j, (j < nl)%nat -> l' j = mvl l j) -> (i < nz)%nat -> ttimes nl (cG P') l' i = sz i * ttimes nl (cG P) l (pz i).
  Proof. intros Hz Hi. apply (ttimes_moved nl pl sl); auto. intros j Hj. apply (rl_G _ _ _ _ _ _ _ RL); assumption. Qed.
  Lemma rAT v v' i : (forall j, (j < nv)%nat -> v' j = mvv v j) -> (i < nz)%nat -> ttimes nv (cA P') v' i = sz i * ttimes nv (cA P) v (pz i).
  Proof.
    intros Hz Hi. apply (ttimes_moved nv pv same_sign); auto using same_signs.
    intros j Hj. rewrite (rl_A _ _ _ _ _ _ _ RL) by assumption. unfold same_sign. ring.
  Qed.
  Lemma relabel_convex : convex P -> convex P'.
  Proof.
    intros [C1 C2]. pose proof (rl_nz _ _ _ _ _ _ _ RL) as N. split.
    - intros i j Hi Hj. rewrite N in Hi, Hj. rewrite !(rl_H _ _ _ _ _ _ _ RL) by assumption. rewrite (C1 (pz i) (pz j)) by (apply Pz; assumption). ring.
    - intro z. unfold quad. rewrite N.
      (* pull z back along the reordering *)
      assert (I : exists w, forall i, (i < nz)%nat -> w (pz i) = sz i * z i).
      { exists (fun j => rsum nz (fun i => if Nat.eqb (pz i) j then sz i * z i else 0)). intros i Hi.
        rewrite <- (rsum_if_eq nz i (fun i => sz i * z i) Hi). apply rsum_ext. intros k Hk.
        destruct (Nat.eqb_spec (pz k) (pz i)) as [E|E], (Nat.eqb_spec k i) as [F|F]; try reflexivity.
        - exfalso. apply F. apply Pz; assumption.
        - exfalso. apply E. rewrite F. reflexivity. }
      destruct I as [w Hw]. specialize (C2 w). unfold quad in C2.
      rewrite <- (rsum_reorder nz pz _ Pz) in C2.
      rewrite (rsum_ext nz _ (fun i => rsum nz (fun j => z i * cH P' i j * z j))) in C2; [exact C2|].
      intros i Hi. cbv beta. rewrite <- (rsum_reorder nz pz _ Pz). apply rsum_ext. intros j Hj.
      rewrite !Hw, (rl_H _ _ _ _ _ _ _ RL) by assumption. ring.
  Qed.
  Lemma relabel_newton sg g m dz dl dv rz rl rv : newton_system P sg g m dz dl dv rz rl rv ->
    newton_system P' sg (mvv g) (mvv m) (mvz dz) (mvl dl) (mvv dv) (mvz rz) (mvl rl) (mvv rv).
  Proof.
    unfold newton_system. rewrite (rl_nz _ _ _ _ _ _ _ RL), (rl_nl _ _ _ _ _ _ _ RL), (rl_nv _ _ _ _ _ _ _ RL).
    intros (N1 & N2 & N3). split; [|split]; intros k Hk.
    - rewrite (rH dz), (rGT dl), (rAT dv) by auto. unfold mvz. rewrite <- (N1 (pz k)) by (apply Pz; exact Hk). ring.
    - rewrite (rG dz) by auto. unfold mvl. rewrite <- (N2 (pl k)) by (apply Pl; exact Hk). ring.
    - rewrite (rA dz) by auto. unfold mvv, same_sign. rewrite <- (N3 (pv k)) by (apply Pv; exact Hk). ring.
  Qed.

  Definition V (x x' : var R) : Prop := @vm P x /\ @vm P' x' /\ same_point P pz pl pv sz sl x x'.
  Lemma V_z x x' : V x x' -> forall j, (j < nz)%nat -> rg (v_z x') j = mvz (rg (v_z x)) j.
  Proof. intros (_ & _ & (_ & _ & H) & _). exact H. Qed.
  Lemma V_l x x' : V x x' -> forall j, (j < nl)%nat -> rg (v_l x') j = mvl (rg (v_l x)) j.
  Proof. intros (_ & _ & _ & (_ & _ & H) & _). exact H. Qed.
  Lemma V_v x x' : V x x' -> forall j, (j < nv)%nat -> rg (v_v x') j = mvv (rg (v_v x)) j.
  Proof. intros (_ & _ & _ & _ & (_ & _ & H)). exact H. Qed.
  Lemma margin_moved z z' k : (forall j, (j < nz)%nat -> z' j = mvz z j) -> (k < nv)%nat -> margin P' z' k = margin P z (pv k).
  Proof. intros Hz Hk. unfold margin. rewrite (rl_nz _ _ _ _ _ _ _ RL), (rA z) by assumption. rewrite (rl_b _ _ _ _ _ _ _ RL) by exact Hk. reflexivity. Qed.
  Lemma V_y x x' : V x x' -> forall j, (j < nv)%nat -> rg (v_y x') j = rg (v_y x) (pv j).
  Proof.
    intros H j Hj. assert (H0 := H). destruct H0 as ((_ & M) & (_ & M') & _).
    rewrite M' by (rewrite (rl_nv _ _ _ _ _ _ _ RL); exact Hj). rewrite M by (apply Pv; exact Hj).
    apply margin_moved; [apply V_z; exact H|exact Hj].
  Qed.
End Relabel.

(* ---------- the two data objects ---------- *)
Section TwoProblems.
  Context {P P' : QP} {pz pl pv : nat -> nat} {sz sl : nat -> R}.
  Hypothesis RL : relabels P P' pz pl pv sz sl.
  Context {D1 D2 : Type} {DI1 : DataI R D1} {DI2 : DataI R D2} {d1 : D1} {d2 : D2}.
  Hypothesis EX1 : Explicit DI1 d1 P.
  Hypothesis EX2 : Explicit DI2 d2 P'.
  Notation nz := (n_z P). Notation nl := (n_l P). Notation nv := (n_v P).
  Notation V := (@V P P' pz pl pv sz sl).
  Let Pz := rl_pz _ _ _ _ _ _ _ RL.
  Let Pl := rl_pl _ _ _ _ _ _ _ RL.
  Let Pv := rl_pv _ _ _ _ _ _ _ RL.
  Let Sz := rl_sz _ _ _ _ _ _ _ RL.
  Let Sl := rl_sl _ _ _ _ _ _ _ RL.
  Let Ez := rl_nz _ _ _ _ _ _ _ RL.
  Let El := rl_nl _ _ _ _ _ _ _ RL.
  Let Ev := rl_nv _ _ _ _ _ _ _ RL.

  Lemma V_ok x x' : V x x' -> var_ok nz nl nv x /\ var_ok (n_z P') (n_l P') (n_v P') x'.
  Proof. intros ((A & _) & (B & _) & _). split; assumption. Qed.
  Lemma mv_stat_z x x' : V x x' -> moved nz pz sz (stat_z Rops DI1 d1 nz x) (stat_z Rops DI2 d2 (n_z P') x').
  Proof.
    intro H. destruct (V_ok _ _ H) as [O1 O2]. destruct (e_stat_z EX1 x O1) as [L1 E1]. destruct (e_stat_z EX2 x' O2) as [L2 E2].
    split; [exact L1|]. split; [congruence|]. intros i Hi. rewrite E2 by congruence. rewrite E1 by (apply Pz; exact Hi).
    unfold lagr. rewrite Ez, El, Ev.
    rewrite (rH RL _ _ _ (V_z _ _ H) Hi), (rGT RL _ _ _ (V_l _ _ H) Hi), (rAT RL _ _ _ (V_v _ _ H) Hi), (rl_f _ _ _ _ _ _ _ RL) by exact Hi. ring.
  Qed.
  Lemma mv_stat_l x x' : V x x' -> moved nl pl sl (stat_l Rops DI1 d1 nl x) (stat_l Rops DI2 d2 (n_l P') x').
  Proof.
    intro H. destruct (V_ok _ _ H) as [O1 O2]. destruct (e_stat_l EX1 x O1) as [L1 E1]. destruct (e_stat_l EX2 x' O2) as [L2 E2].
    split; [exact L1|]. split; [congruence|]. intros i Hi. rewrite E2 by congruence. rewrite E1 by (apply Pl; exact Hi).
    rewrite Ez, (rG RL _ _ _ (V_z _ _ H) Hi), (rl_h _ _ _ _ _ _ _ RL) by exact Hi. ring.
  Qed.
  Lemma V_moved x x' : V x x' -> moved nz pz sz (v_z x) (v_z x') /\ moved nl pl sl (v_l x) (v_l x') /\ moved nv pv same_sign (v_v x) (v_v x').
  Proof. intros (_ & _ & H). exact H. Qed.
  Lemma mv_tab f f' : (forall i, (i < nv)%nat -> f' i = f (pv i)) -> moved nv pv same_sign (tab nv f) (tab (n_v P') f').
  Proof.
    intro H. split; [apply tab_length|]. split; [rewrite tab_length; exact Ev|]. intros i Hi.
    rewrite !(vget_tab Rops) by (try apply Pv; congruence). rewrite H by exact Hi. unfold same_sign. ring.
  Qed.
  Definition mv_rsd (r r' : rsd R) : Prop := moved nz pz sz (r_z r) (r_z r') /\ moved nl pl sl (r_l r) (r_l r') /\ moved nv pv same_sign (r_v r) (r_v r').
  Lemma mv_mk z l v z' l' v' : moved nz pz sz z z' -> moved nl pl sl l l' -> moved nv pv same_sign v v' ->
    rsd_norm Rops (mk_rsd Rops z l v) = rsd_norm Rops (mk_rsd Rops z' l' v').
  Proof.
    intros A B C. unfold rsd_norm, mk_rsd. cbn [r_zn r_ln r_vn].
    rewrite (moved_norm Pz Sz _ _ A), (moved_norm Pl Sl _ _ B), (moved_norm Pv (same_signs nv) _ _ C). reflexivity.
  Qed.
  Lemma mv_pnr al x x' : V x x' -> rsd_norm Rops (ppnr Rops DI1 d1 nz nl nv al x) = rsd_norm Rops (ppnr Rops DI2 d2 (n_z P') (n_l P') (n_v P') al x').
  Proof.
    intro H. unfold ppnr. apply mv_mk; [apply mv_stat_z; exact H|apply mv_stat_l; exact H|]. apply mv_tab. intros i Hi.
    rewrite (V_y RL _ _ H i Hi), (V_v _ _ H i Hi). unfold mvv, same_sign. rewrite Rmult_1_l. reflexivity.
  Qed.
  Lemma mv_inner_parts al sg x x' b b' : V x x' -> V b b' -> mv_rsd (pinnerr Rops DI1 d1 nz nl nv al sg x b) (pinnerr Rops DI2 d2 (n_z P') (n_l P') (n_v P') al sg x' b').
  Proof.
    intros H HB. destruct (V_moved _ _ H) as (A1 & A2 & A3). destruct (V_moved _ _ HB) as (B1 & B2 & B3).
    unfold pinnerr, mk_rsd. split; [|split]; cbn [r_z r_l r_v].
    - apply (moved_axpy Pz); [apply (moved_sub Pz); assumption|apply mv_stat_z; exact H].
    - apply (moved_axpy Pl); [apply (moved_sub Pl); assumption|apply mv_stat_l; exact H].
    - apply mv_tab. intros i Hi. rewrite (V_y RL _ _ H i Hi), (V_v _ _ H i Hi), (V_v _ _ HB i Hi). unfold mvv, same_sign. rewrite !Rmult_1_l. reflexivity.
  Qed.
  Lemma mv_inner al sg x x' b b' : V x x' -> V b b' ->
    rsd_norm Rops (pinnerr Rops DI1 d1 nz nl nv al sg x b) = rsd_norm Rops (pinnerr Rops DI2 d2 (n_z P') (n_l P') (n_v P') al sg x' b').
  Proof. intros H HB. destruct (mv_inner_parts al sg _ _ _ _ H HB) as (A & B & C). apply mv_mk; assumption. Qed.
  Lemma mv_norm x x' : V x x' -> var_norm Rops x = var_norm Rops x'.
  Proof.
    intro H. destruct (V_moved _ _ H) as (A & B & C). unfold var_norm.
    rewrite (moved_norm Pz Sz _ _ A), (moved_norm Pl Sl _ _ B), (moved_norm Pv (same_signs nv) _ _ C). reflexivity.
  Qed.
  Lemma mv_feas tol w1 w2 x x' : ws_ok nz nl nv w1 -> ws_ok (n_z P') (n_l P') (n_v P') w2 -> V x x' ->
    snd (pfeas Rops DI1 d1 nz nl nv tol w1 x) = snd (pfeas Rops DI2 d2 (n_z P') (n_l P') (n_v P') tol w2 x').
  Proof.
    intros W1 W2 H. destruct (V_ok _ _ H) as [(A1 & A2 & A3 & _) (B1 & B2 & B3 & _)]. destruct (V_moved _ _ H) as (Mz & Ml & Mv).
    unfold pfeas. destruct w1 as [[t1 t2] t3], w2 as [[u1 u2] u3]. destruct W1 as (L1 & L2 & L3). destruct W2 as (M1 & M2 & M3).
    cbn [snd]. change (o_one Rops) with 1. change (o_zero Rops) with 0.
    destruct (e_A EX1 (v_z x) 1 0 t3 A1 L3) as [La Ea]. destruct (e_A EX2 (v_z x') 1 0 u3 B1 M3) as [La' Ea'].
    destruct (e_G EX1 (v_z x) 1 0 t2 A1 L2) as [Lg Eg]. destruct (e_G EX2 (v_z x') 1 0 u2 B1 M2) as [Lg' Eg'].
    destruct (e_H EX1 (v_z x) 1 0 t1 A1 L1) as [Lh Eh]. destruct (e_H EX2 (v_z x') 1 0 u1 B1 M1) as [Lh' Eh'].
    assert (Q1 : moved nv pv same_sign (gA DI1 d1 (v_z x) 1 0 t3) (gA DI2 d2 (v_z x') 1 0 u3)).
    { split; [exact La|]. split; [congruence|]. intros i Hi. rewrite Ea' by congruence. rewrite Ea by (apply Pv; exact Hi).
      rewrite Ez, (rA RL _ _ _ (V_z _ _ H) Hi). unfold same_sign. ring. }
    assert (Q2 : moved nl pl sl (gG DI1 d1 (v_z x) 1 0 t2) (gG DI2 d2 (v_z x') 1 0 u2)).
    { split; [exact Lg|]. split; [congruence|]. intros i Hi. rewrite Eg' by congruence. rewrite Eg by (apply Pl; exact Hi).
      rewrite Ez, (rG RL _ _ _ (V_z _ _ H) Hi). ring. }
    assert (Q3 : moved nz pz sz (gH DI1 d1 (v_z x) 1 0 t1) (gH DI2 d2 (v_z x') 1 0 u1)).
    { split; [exact Lh|]. split; [congruence|]. intros i Hi. rewrite Eh' by congruence. rewrite Eh by (apply Pz; exact Hi).
      rewrite Ez, (rH RL _ _ _ (V_z _ _ H) Hi). ring. }
    destruct (e_f EX1) as [Lf Ef]. destruct (e_f EX2) as [Lf' Ef'].
    assert (Q4 : moved nz pz sz (af DI1 d1 1 (vconst nz 0)) (af DI2 d2 1 (vconst (n_z P') 0))).
    { split; [exact Lf|]. split; [congruence|]. intros i Hi. rewrite Ef' by congruence. rewrite Ef by (apply Pz; exact Hi). apply (rl_f _ _ _ _ _ _ _ RL). exact Hi. }
    destruct (e_h EX1) as [Lq Eq]. destruct (e_h EX2) as [Lq' Eq'].
    assert (Q5 : moved nl pl sl (ah DI1 d1 1 (vconst nl 0)) (ah DI2 d2 1 (vconst (n_l P') 0))).
    { split; [exact Lq|]. split; [congruence|]. intros i Hi. rewrite Eq' by congruence. rewrite Eq by (apply Pl; exact Hi). apply (rl_h _ _ _ _ _ _ _ RL). exact Hi. }
    destruct (e_b EX1) as [Lb Eb]. destruct (e_b EX2) as [Lb' Eb'].
    assert (Q6 : moved nv pv same_sign (ab DI1 d1 1 (vconst nv 0)) (ab DI2 d2 1 (vconst (n_v P') 0))).
    { split; [exact Lb|]. split; [congruence|]. intros i Hi. rewrite Eb' by congruence. rewrite Eb by (apply Pv; exact Hi).
      rewrite (rl_b _ _ _ _ _ _ _ RL) by exact Hi. unfold same_sign. ring. }
    destruct (e_AT EX1 (v_v x) (vconst nz 0) A3 (vconst_len _ _)) as [Lt Et]. destruct (e_AT EX2 (v_v x') (vconst (n_z P') 0) B3 (vconst_len _ _)) as [Lt' Et'].
    destruct (e_GT EX1 (v_l x) _ A2 Lt) as [Lu Eu]. destruct (e_GT EX2 (v_l x') _ B2 Lt') as [Lu' Eu'].
    assert (Q7 : moved nz pz sz (gGT DI1 d1 (v_l x) 1 1 (gAT DI1 d1 (v_v x) 1 1 (vconst nz 0))) (gGT DI2 d2 (v_l x') 1 1 (gAT DI2 d2 (v_v x') 1 1 (vconst (n_z P') 0)))).
    { split; [exact Lu|]. split; [congruence|]. intros i Hi. assert (Hi' := Hi). apply Pz in Hi'. rewrite Eu', Et', rg_const by congruence. rewrite Eu, Et, rg_const by exact Hi'.
      rewrite El, Ev, (rGT RL _ _ _ (V_l _ _ H) Hi), (rAT RL _ _ _ (V_v _ _ H) Hi). ring. }
    unfold primal_bad, dual_bad. cbn [o_maxc Rops].
    rewrite (moved_max _ _ _ _ Pv Q1), (moved_inf Pl Sl _ _ Q2), (moved_inf Pz Sz _ _ Q3), (moved_dot Pz Sz _ _ _ _ Q4 Mz),
      (moved_dot Pl Sl _ _ _ _ Q5 Ml), (moved_dot Pv (same_signs nv) _ _ _ _ Q6 Mv), (moved_inf Pz Sz _ _ Q7),
      (moved_inf Pz Sz _ _ Mz), (moved_inf Pl Sl _ _ Ml), (moved_inf Pv (same_signs nv) _ _ Mv). reflexivity.
  Qed.
  Lemma mv_fnorm : di_fnorm DI1 d1 = di_fnorm DI2 d2.
  Proof.
    rewrite (ex_fnorm _ _ _ EX1), (ex_fnorm _ _ _ EX2), Ez, El, Ev. f_equal. f_equal; [f_equal|].
    - rewrite <- (rsum_reorder nz pz _ Pz). apply rsum_ext. intros i Hi. rewrite (rl_f _ _ _ _ _ _ _ RL) by exact Hi.
      pose proof (sign_sq _ _ _ Sz Hi) as E. replace (sz i * cf P (pz i) * (sz i * cf P (pz i))) with (sz i * sz i * (cf P (pz i) * cf P (pz i))) by ring. rewrite E. ring.
    - rewrite <- (rsum_reorder nl pl _ Pl). apply rsum_ext. intros i Hi. rewrite (rl_h _ _ _ _ _ _ _ RL) by exact Hi.
      pose proof (sign_sq _ _ _ Sl Hi) as E. replace (sl i * ch P (pl i) * (sl i * ch P (pl i))) with (sl i * sl i * (ch P (pl i) * ch P (pl i))) by ring. rewrite E. ring.
    - rewrite <- (rsum_reorder nv pv _ Pv). apply rsum_ext. intros i Hi. rewrite (rl_b _ _ _ _ _ _ _ RL) by exact Hi. reflexivity.
  Qed.
End TwoProblems.

Lemma newton_ext P sg g m dz dl dv rz rl rv g' m' rz' rl' rv' :
  (forall k, (k < n_v P)%nat -> g k = g' k /\ m k = m' k) -> (forall i, (i < n_z P)%nat -> rz i = rz' i) ->
  (forall i, (i < n_l P)%nat -> rl i = rl' i) -> (forall i, (i < n_v P)%nat -> rv i = rv' i) ->
  newton_system P sg g m dz dl dv rz rl rv -> newton_system P sg g' m' dz dl dv rz' rl' rv'.
Proof.
  intros W Z L U (N1 & N2 & N3). split; [|split]; intros k Hk.
  - rewrite N1, Z by exact Hk. reflexivity.
  - rewrite N2, L by exact Hk. reflexivity.
  - rewrite <- U by exact Hk. rewrite <- N3 by exact Hk. destruct (W k Hk) as [-> ->]. reflexivity.
Qed.

(* ---------------------------------------------------------------- C73 *)
(* LA1, LA2: any two exact linear algebras.  Either solver, any history of the two objects. *)
Theorem C73_relabelled : forall LA1 LA2 P P' pz pl pv sz sl o dl x x' el r r',
  LALaws LA1 -> LALaws LA2 -> convex P -> relabels P P' pz pl pv sz sl ->
  solves LA1 P o x el r -> solves LA2 P' (with_display o dl) x' el r' -> same_point P pz pl pv sz sl x x' ->
  sr_out r = sr_out r' /\
  forall out, sr_out r = Ok out -> same_point P pz pl pv sz sl (sr_x r) (sr_x r') /\
    moved (n_v P) pv same_sign (v_y (sr_x r)) (v_y (sr_x r')).
Proof.
  intros LA1 LA2 P P' pz pl pv sz sl o dl x x' el r r' L1 L2 C RL S1 S2 SP.
  assert (Hal := solve_alpha _ _ _ _ _ _ S1). assert (Hsg := solve_sigma _ _ _ _ _ _ S1).
  assert (C2 := relabel_convex RL C).
  destruct (solves_rcall _ _ _ _ _ _ S1) as (D1 & DI1 & d1 & pi1 & ps1 & st1 & w1 & RC1).
  destruct (solves_rcall _ _ _ _ _ _ S2) as (D2 & DI2 & d2 & pi2 & ps2 & st2 & w2 & RC2).
  pose proof (rc_ex _ _ _ _ _ _ _ _ _ _ _ _ _ RC1) as EX1.
  pose proof (rc_ex _ _ _ _ _ _ _ _ _ _ _ _ _ RC2) as EX2.
  pose proof (rc_cd _ _ _ _ _ _ _ _ _ _ _ _ _ RC1) as CD1.
  pose proof (rc_cd _ _ _ _ _ _ _ _ _ _ _ _ _ RC2) as CD2.
  pose proof (lin_newton _ _ _ _ _ _ _ L1 C EX1 (rc_lin _ _ _ _ _ _ _ _ _ _ _ _ _ RC1)) as N1.
  pose proof (lin_newton _ _ _ _ _ _ _ L2 C2 EX2 (rc_lin _ _ _ _ _ _ _ _ _ _ _ _ _ RC2)) as N2.
  pose proof (rl_nz _ _ _ _ _ _ _ RL) as Ez. pose proof (rl_nl _ _ _ _ _ _ _ RL) as El. pose proof (rl_nv _ _ _ _ _ _ _ RL) as Ev.
  rewrite (cd_run _ _ _ _ _ _ _ _ _ _ _ _ _ _ CD1), (cd_run _ _ _ _ _ _ _ _ _ _ _ _ _ _ CD2).
  set (pb1 := prob_of Rops DI1 d1 (n_z P) (n_l P) (n_v P) pi1 ps1 o).
  set (pb2 := prob_of Rops DI2 d2 (n_z P') (n_l P') (n_v P') pi2 ps2 (with_display o dl)).
  set (VV := @V P P' pz pl pv sz sl).
  assert (KEY : osim (res_r VV) (psolve Rops o pb1 (n_z P) (n_l P) (n_v P) el st1 w1 x)
                               (psolve Rops (with_display o dl) pb2 (n_z P') (n_l P') (n_v P') el st2 w2 x')).
  { rewrite Ez, El, Ev.
    apply (psolve_rel Rops o dl pb1 pb2 VV (fun u1 u2 => ws_ok (n_z P) (n_l P) (n_v P) u1 /\ ws_ok (n_z P') (n_l P') (n_v P') u2)).
    - constructor.
      + intros y y' H. exact (mv_pnr RL EX1 EX2 (p_alpha o) y y' H).
      + intros y y' b b' H HB. exact (mv_inner RL EX1 EX2 (p_alpha o) (p_sigma0 o) y y' b b' H HB).
      + intros y y' b b' H HB. unfold pb1, pb2. cbn [pb_newton prob_of]. unfold pnewton. cbn [p_alpha p_sigma0 with_display].
        destruct (V_ok _ _ H) as [O1 O2]. destruct (V_ok _ _ HB) as [OB1 OB2].
        set (rr := rsd_neg Rops (pb_inner (prob_of _ _ d1 _ _ _ _ _ _) y b)). set (rr' := rsd_neg Rops (pb_inner _ y' b')).
        assert (Hr : rsd_ok (n_z P) (n_l P) (n_v P) rr) by (apply neg_ok; apply (cl_inner Rops _ _ _ _ _ _ _ _ _ _ _ _ _ CD1); assumption).
        assert (Hr' : rsd_ok (n_z P') (n_l P') (n_v P') rr') by (apply neg_ok; apply (cl_inner Rops _ _ _ _ _ _ _ _ _ _ _ _ _ CD2); assumption).
        destruct (N1 (p_alpha o) (p_sigma0 o) y b Hal Hsg) as [I1 K1].
        destruct (N2 (p_alpha o) (p_sigma0 o) y' b' Hal Hsg) as [I2 K2]. rewrite I1, I2. cbn [rsim].
        assert (V1 := cd_step _ _ _ _ _ _ _ _ _ _ _ _ _ _ CD1 _ _ _ _ rr O1 OB1 Hr I1).
        assert (V2 := cd_step _ _ _ _ _ _ _ _ _ _ _ _ _ _ CD2 _ _ _ _ rr' O2 OB2 Hr' I2).
        specialize (K1 rr Hr). specialize (K2 rr' Hr'). cbv zeta in K1, K2.
        assert (Y1 := rc_y _ _ _ _ _ _ _ _ _ _ _ _ _ RC1 _ _ _ _ _ V1).
        assert (Y2 := rc_y _ _ _ _ _ _ _ _ _ _ _ _ _ RC2 _ _ _ _ _ V2).
        set (a1 := ps1 _ _ y b rr) in *. set (a2 := ps2 _ _ y' b' rr') in *.
        apply (relabel_newton RL) in K1.
        assert (W : weights_ok P' (rg (w_gamma Rops (p_alpha o) (p_sigma0 o) y' b' (n_v P'))) (rg (w_mus Rops (p_alpha o) (p_sigma0 o) y' b' (n_v P')))).
        { intros k Hk. destruct (C33_weights (p_alpha o) (p_sigma0 o) y' b' (n_v P') Hal Hsg) as (_ & _ & _ & W).
          destruct (W k Hk) as (W1 & W2 & _). auto. }
        assert (MR : mv_rsd (P:=P) (pz:=pz) (pl:=pl) (pv:=pv) (sz:=sz) (sl:=sl) (pb_inner pb1 y b) (pb_inner pb2 y' b'))
          by exact (mv_inner_parts RL EX1 EX2 (p_alpha o) (p_sigma0 o) y y' b b' H HB).
        assert (NEG : forall n p s u u' i, reorders n p -> moved n p s u u' -> (i < n)%nat ->
                  s i * rg (vscale Rops (o_mone Rops) u) (p i) = rg (vscale Rops (o_mone Rops) u') i).
        { intros n p s u u' i Hp (Lu & Lu' & Eu) Hi. unfold vscale. rewrite Lu, Lu', !(vget_tab Rops) by (try apply Hp; exact Hi).
          rewrite Eu by exact Hi. cbn [o_mul Rops]. ring. }
        eapply newton_ext in K1.
        * destruct (C34_newton_unique _ _ _ _ _ _ _ _ _ _ _ _ _ C2 Hsg W K1 K2) as (U1 & U2 & U3).
          rewrite Ez in U1. rewrite El in U2. rewrite Ev in U3.
          assert (V1' := V1). assert (V2' := V2). destruct V1' as (V11 & V12 & V13 & V14). destruct V2' as (V21 & V22 & V23 & V24).
          split; [split; assumption|]. split; [split; assumption|]. split; [|split].
          -- split; [exact V11|]. split; [congruence|]. intros i Hi. symmetry. apply U1. exact Hi.
          -- split; [exact V12|]. split; [congruence|]. intros i Hi. symmetry. apply U2. exact Hi.
          -- split; [exact V13|]. split; [congruence|]. intros i Hi. symmetry. apply U3. exact Hi.
        * intros k Hk. rewrite Ev in Hk. assert (Hk' := Hk). apply (rl_pv _ _ _ _ _ _ _ RL) in Hk'.
          unfold mvv, same_sign, w_gamma, w_mus. rewrite !(vget_tab Rops) by (try rewrite Ev; assumption). rewrite !Rmult_1_l. unfold pfb_ys.
          rewrite (V_y RL _ _ H k Hk), (V_v _ _ H k Hk), (V_v _ _ HB k Hk). unfold mvv, same_sign. rewrite !Rmult_1_l. auto.
        * intros i Hi. rewrite Ez in Hi. destruct MR as (M1 & _). exact (NEG _ _ _ _ _ _ (rl_pz _ _ _ _ _ _ _ RL) M1 Hi).
        * intros i Hi. rewrite El in Hi. destruct MR as (_ & M1 & _). exact (NEG _ _ _ _ _ _ (rl_pl _ _ _ _ _ _ _ RL) M1 Hi).
        * intros i Hi. rewrite Ev in Hi. destruct MR as (_ & _ & M1). exact (NEG _ _ _ _ _ _ (rl_pv _ _ _ _ _ _ _ RL) M1 Hi).
      + intros a y y' u u' H HU. assert (H0 := H). assert (H1 := HU). destruct H0 as (A1 & A2 & A3 & A4 & A5), H1 as (B1 & B2 & B3 & B4 & B5).
        split; [exact (vm_axpy RC1 a _ _ A1 B1)|]. split; [exact (vm_axpy RC2 a _ _ A2 B2)|]. split; [|split]; cbn [pb_axpy pb1 pb2 prob_of]; unfold paxpy; cbn [v_z v_l v_v].
        * apply (moved_axpy (rl_pz _ _ _ _ _ _ _ RL)); assumption.
        * apply (moved_axpy (rl_pl _ _ _ _ _ _ _ RL)); assumption.
        * apply (moved_axpy (rl_pv _ _ _ _ _ _ _ RL)); assumption.
      + intros y y' (A1 & A2 & A3 & A4 & A5). split; [exact (vm_proj _ A1)|]. split; [exact (vm_proj _ A2)|]. split; [exact A3|]. split; [exact A4|].
        destruct A5 as (La & Lb & E). unfold proj_duals. cbn [v_v]. split; [rewrite tab_length; exact La|]. split; [rewrite tab_length; exact Lb|].
        intros i Hi. rewrite La, Lb, !(vget_tab Rops) by (try apply (rl_pv _ _ _ _ _ _ _ RL); exact Hi). rewrite E by exact Hi. unfold same_sign. rewrite !Rmult_1_l. reflexivity.
      + intros y y' H. exact (mv_norm RL y y' H).
      + intros u1 u2 y y' [W1 W2] H. destruct (V_ok _ _ H) as [O1 O2]. split; [exact (mv_feas RL EX1 EX2 (p_infeas_tol o) u1 u2 y y' W1 W2 H)|]. split.
        * exact (cl_feas Rops _ _ _ _ _ _ _ _ _ _ _ _ _ CD1 u1 y W1 O1).
        * exact (cl_feas Rops _ _ _ _ _ _ _ _ _ _ _ _ _ CD2 u2 y' W2 O2).
      + unfold pb1, pb2. cbn [pb_combo prob_of]. unfold combo_of. cbn [p_abs_tol p_rel_tol with_display]. rewrite (mv_fnorm RL EX1 EX2). reflexivity.
    - split; [exact (vm_start RC1)|]. split; [exact (vm_start RC2)|exact SP].
    - reflexivity.
    - split; [exact (cd_ws _ _ _ _ _ _ _ _ _ _ _ _ _ _ CD1)|exact (cd_ws _ _ _ _ _ _ _ _ _ _ _ _ _ _ CD2)]. }
  revert KEY. unfold osim, presult.
  destruct (psolve Rops o pb1 _ _ _ _ _ _ _) as [[l1 t1] [[o1 y1]|e1|u1]], (psolve Rops (with_display o dl) pb2 _ _ _ _ _ _ _) as [[l2 t2] [[o2 y2]|e2|u2]];
    cbn [snd rsim sr_out sr_x]; try contradiction.
  - intros [E H]. cbn [fst snd] in E, H. subst o2. split; [reflexivity|]. intros out _. split; [apply H|].
    assert (HY := V_y RL _ _ H). destruct (V_ok _ _ H) as [(_ & _ & _ & Q1) (_ & _ & _ & Q2)].
    split; [exact Q1|]. split; [congruence|]. intros i Hi. rewrite HY by exact Hi. unfold same_sign. ring.
  - intros ->. split; [reflexivity|]. intros out E. discriminate E.
  - intros ->. split; [reflexivity|]. intros out E. discriminate E.
Qed.
Print Assumptions C73_relabelled.
