(* Matrix facts over the reals used for the Riccati recursion: matrices are functions of two
   indices, [times]/[ttimes] are products with a vector.  Nothing here mentions the code. *)
From Verif Require Export NewtonSpec LALaws.
Local Open Scope R_scope.

(* ---------- products ---------- *)
Lemma times_ext m M x y i : (forall j, (j < m)%nat -> x j = y j) -> times m M x i = times m M y i.
Proof. intro H. apply rsum_ext. intros j Hj. rewrite H by exact Hj. reflexivity. Qed.
Lemma ttimes_ext m M x y i : (forall j, (j < m)%nat -> x j = y j) -> ttimes m M x i = ttimes m M y i.
Proof. intro H. apply rsum_ext. intros j Hj. rewrite H by exact Hj. reflexivity. Qed.
Lemma times_plus m M x y i : times m M (fun j => x j + y j) i = times m M x i + times m M y i.
Proof. unfold times. rewrite <- rsum_add. apply rsum_ext; intros; ring. Qed.
Lemma ttimes_plus m M x y i : ttimes m M (fun j => x j + y j) i = ttimes m M x i + ttimes m M y i.
Proof. unfold ttimes. rewrite <- rsum_add. apply rsum_ext; intros; ring. Qed.
Lemma times_opp m M x i : times m M (fun j => - x j) i = - times m M x i.
Proof. unfold times. rewrite <- rsum_opp. apply rsum_ext; intros; ring. Qed.
Lemma ttimes_opp m M x i : ttimes m M (fun j => - x j) i = - ttimes m M x i.
Proof. unfold ttimes. rewrite <- rsum_opp. apply rsum_ext; intros; ring. Qed.

(* A (B v) = (AB) v and the three transposed variants *)
Lemma tm_tm a b A B C v i : (forall j, (j < b)%nat -> rsum a (fun k => A i k * B k j) = C i j) ->
  times a A (times b B v) i = times b C v i.
Proof.
  intro H. unfold times.
  transitivity (rsum a (fun k => rsum b (fun j => A i k * B k j * v j))).
  { apply rsum_ext. intros k _. rewrite <- rsum_scal. apply rsum_ext. intros; ring. }
  rewrite rsum_swap. apply rsum_ext. intros j Hj. rewrite rsum_scal_r, H by exact Hj. reflexivity.
Qed.
Lemma tm_tt a b A B C v i : (forall j, (j < b)%nat -> rsum a (fun k => A i k * B j k) = C i j) ->
  times a A (ttimes b B v) i = times b C v i.
Proof. intro H. exact (tm_tm a b A (fun k j => B j k) C v i H). Qed.
Lemma tm_tt_tr a b A B C v i : (forall j, (j < b)%nat -> rsum a (fun k => B j k * A i k) = C j i) ->
  times a A (ttimes b B v) i = ttimes b C v i.
Proof.
  intro H. apply (tm_tm a b A (fun k j => B j k) (fun i j => C j i) v i).
  intros j Hj. rewrite <- H by exact Hj. apply rsum_ext; intros; ring.
Qed.

(* <u, M v> = <M' u, v> *)
Lemma dot_times r c M u v : rsum r (fun i => u i * times c M v i) = rsum c (fun j => ttimes r M u j * v j).
Proof.
  unfold times, ttimes.
  transitivity (rsum r (fun i => rsum c (fun j => M i j * u i * v j))).
  { apply rsum_ext. intros i _. rewrite <- rsum_scal. apply rsum_ext; intros; ring. }
  rewrite rsum_swap. apply rsum_ext. intros j _. rewrite rsum_scal_r. reflexivity.
Qed.

Lemma dot_comm n u v : rsum n (fun i => u i * v i) = rsum n (fun i => v i * u i).
Proof. apply rsum_ext; intros; ring. Qed.
Lemma qform_times n K x : qform n K x = rsum n (fun i => x i * times n K x i).
Proof.
  unfold qform, times. apply rsum_ext. intros i _. rewrite <- rsum_scal. apply rsum_ext; intros; ring.
Qed.

(* ---------- lower triangles ---------- *)
Definition lowf (M : nat -> nat -> R) (i j : nat) : R := if (j <=? i)%nat then M i j else 0.
Definition gram (n : nat) (L : nat -> nat -> R) (i j : nat) : R := rsum n (fun k => L i k * L j k).

Lemma gram_sym n L i j : gram n L i j = gram n L j i.
Proof. apply rsum_ext; intros; ring. Qed.
Lemma gram_times n p L v i : times p (gram n L) v i = times n L (ttimes p L v) i.
Proof. symmetry. apply tm_tt. reflexivity. Qed.
Lemma qform_gram n p L x : qform p (gram n L) x = rsum n (fun k => ttimes p L x k * ttimes p L x k).
Proof.
  rewrite qform_times.
  rewrite (rsum_ext p _ (fun i => x i * times n L (ttimes p L x) i)) by (intros; rewrite gram_times; reflexivity).
  apply dot_times.
Qed.
Lemma rsum_trunc n m f : (m <= n)%nat -> (forall k, (m <= k < n)%nat -> f k = 0) -> rsum n f = rsum m f.
Proof.
  intros H Z. replace n with (m + (n - m))%nat by lia. rewrite rsum_split.
  rewrite (rsum_zero (n - m)); [ring|]. intros i Hi. apply Z. lia.
Qed.

(* positive definiteness *)
Lemma posdef_ext n K K' : (forall i j, (i < n)%nat -> (j < n)%nat -> K i j = K' i j) -> posdef n K -> posdef n K'.
Proof.
  intros E P x Hx. replace (qform n K' x) with (qform n K x); [apply P; exact Hx|].
  apply rsum_ext. intros i Hi. apply rsum_ext. intros j Hj. rewrite E by assumption. reflexivity.
Qed.
Lemma sq_pos n x : (exists i, (i < n)%nat /\ x i <> 0) -> 0 < rsum n (fun i => x i * x i).
Proof.
  intros (i & Hi & Hx).
  assert (0 < x i * x i) by nra.
  assert (T := rsum_term_le n (fun i => x i * x i) i Hi (fun j _ => Rle_0_sqr (x j))). cbn beta in T. lra.
Qed.
Lemma sq_nonneg n x : 0 <= rsum n (fun i => x i * x i).
Proof. apply rsum_nonneg. intros. apply Rle_0_sqr. Qed.
Lemma qform_scaled n s x : qform n (fun i j => if Nat.eqb i j then s else 0) x = s * rsum n (fun i => x i * x i).
Proof.
  unfold qform. rewrite <- rsum_scal. apply rsum_ext. intros i Hi.
  rewrite (rsum_ext n _ (fun j => if Nat.eqb j i then s * (x i * x j) else 0)).
  - rewrite rsum_if_eq by exact Hi. ring.
  - intros j _. rewrite (Nat.eqb_sym j i). destruct (Nat.eqb i j); ring.
Qed.
Lemma qform_plus n K K' x : qform n (fun i j => K i j + K' i j) x = qform n K x + qform n K' x.
Proof.
  unfold qform. rewrite <- rsum_add. apply rsum_ext. intros i _. rewrite <- rsum_add. apply rsum_ext; intros; ring.
Qed.
Lemma qform_minus n K K' x : qform n (fun i j => K i j - K' i j) x = qform n K x - qform n K' x.
Proof.
  unfold qform. rewrite <- rsum_sub. apply rsum_ext. intros i _. rewrite <- rsum_sub. apply rsum_ext; intros; ring.
Qed.
Lemma qform_ext n K K' x : (forall i j, (i < n)%nat -> (j < n)%nat -> K i j = K' i j) -> qform n K x = qform n K' x.
Proof.
  intro E. apply rsum_ext. intros i Hi. apply rsum_ext. intros j Hj. rewrite E by assumption. reflexivity.
Qed.

(* ---------- one stage of the recursion ---------- *)
(* Matrices: Qh, X, Pi, M, AM : nx x nx; Sh, SM : nu x nx; Rh, SG : nu x nu; P : nx x nu.  M and SG are the
   (lower triangular) Cholesky factors as functions. *)
Section Stage.
  Variables (nx nu : nat).
  Variables (Qh X Pi M : nat -> nat -> R) (Sh SM : nat -> nat -> R) (Rh SG : nat -> nat -> R).
  Hypothesis eM : forall i j, (i < nx)%nat -> (j < nx)%nat -> gram nx M i j = Qh i j + X i j.
  Hypothesis eSM : forall i j, (i < nu)%nat -> (j < nx)%nat -> rsum nx (fun k => SM i k * M j k) = Sh i j.
  Hypothesis eSG : forall i j, (i < nu)%nat -> (j < nu)%nat -> gram nu SG i j = Rh i j - gram nx SM i j.
  Hypothesis ePX : forall i j, (i < nx)%nat -> (j < nx)%nat ->
    rsum nx (fun k => Pi i k * X k j) = if Nat.eqb i j then 1 else 0.
  Hypothesis eX : forall i j, (i < nx)%nat -> (j < nx)%nat -> X i j = X j i.
  Hypothesis ePi : forall i j, (i < nx)%nat -> (j < nx)%nat -> Pi i j = Pi j i.

  Lemma times_id v i : (i < nx)%nat -> times nx (fun i j => if Nat.eqb i j then 1 else 0) v i = v i.
  Proof.
    intro Hi. unfold times. rewrite (rsum_ext nx _ (fun j => if Nat.eqb j i then v j else 0)).
    - apply rsum_if_eq; exact Hi.
    - intros j _. rewrite (Nat.eqb_sym j i). destruct (Nat.eqb i j); ring.
  Qed.
  Lemma PX v i : (i < nx)%nat -> times nx Pi (times nx X v) i = v i.
  Proof.
    intro Hi. rewrite (tm_tm nx nx Pi X (fun i j => if Nat.eqb i j then 1 else 0)).
    - apply times_id; exact Hi.
    - intros j Hj. apply ePX; assumption.
  Qed.
  Lemma XP v i : (i < nx)%nat -> times nx X (times nx Pi v) i = v i.
  Proof.
    intro Hi. rewrite (tm_tm nx nx X Pi (fun i j => if Nat.eqb i j then 1 else 0)).
    - apply times_id; exact Hi.
    - intros j Hj. rewrite (rsum_ext nx _ (fun k => Pi j k * X k i)).
      + rewrite ePX by assumption. rewrite Nat.eqb_sym. reflexivity.
      + intros k Hk. rewrite (eX i k), (ePi k j) by assumption. ring.
  Qed.

  Variables (AM : nat -> nat -> R) (Pm : nat -> nat -> R).
  Variables (A B : nat -> nat -> R).
  Hypothesis eAM : forall i j, (i < nx)%nat -> (j < nx)%nat -> rsum nx (fun k => AM i k * M j k) = A i j.
  Hypothesis eP : forall i j, (i < nx)%nat -> (j < nu)%nat ->
    rsum nu (fun k => Pm i k * SG j k) = rsum nx (fun k => AM i k * SM j k) - B i j.

  (* vectors *)
  Variables (theta t rx ru tx tu l' x u l : nat -> R).
  Hypothesis vt : forall i, (i < nx)%nat -> times nx Pi t i = theta i.
  Hypothesis vtx : forall i, (i < nx)%nat -> times nx M tx i = t i - rx i.
  Hypothesis vtu : forall i, (i < nu)%nat -> times nu SG tu i = times nx SM tx i + ru i.
  Hypothesis vu : forall i, (i < nu)%nat -> ttimes nu SG u i = tu i + ttimes nx Pm l' i.
  Hypothesis vx : forall i, (i < nx)%nat ->
    ttimes nx M (fun j => - x j) i = tx i + ttimes nu SM u i + ttimes nx AM l' i.
  Hypothesis vl : forall i, (i < nx)%nat -> times nx Pi l i = - (theta i + x i).

  (* Qh x + Sh' u - l + A' l' = rx *)
  Lemma stage_x i : (i < nx)%nat ->
    times nx Qh x i + ttimes nu Sh u i - l i + ttimes nx A l' i = rx i.
  Proof.
    intro Hi.
    assert (E1 : times nx M (ttimes nx M (fun j => - x j)) i = - (times nx Qh x i + times nx X x i)).
    { rewrite (tm_tt nx nx M M (fun i j => Qh i j + X i j)) by (intros j Hj; apply eM; assumption).
      rewrite times_opp. f_equal. unfold times. rewrite <- rsum_add. apply rsum_ext; intros; ring. }
    assert (E2 : times nx M (ttimes nx M (fun j => - x j)) i =
                 times nx M tx i + times nx M (ttimes nu SM u) i + times nx M (ttimes nx AM l') i).
    { rewrite <- !times_plus. apply times_ext. intros j Hj. apply vx; exact Hj. }
    assert (E3 : times nx M (ttimes nu SM u) i = ttimes nu Sh u i).
    { apply tm_tt_tr. intros j Hj. apply eSM; assumption. }
    assert (E4 : times nx M (ttimes nx AM l') i = ttimes nx A l' i).
    { apply tm_tt_tr. intros j Hj. apply eAM; assumption. }
    assert (E5 : times nx X theta i = t i).
    { rewrite <- (XP t i Hi). apply times_ext. intros j Hj. symmetry. apply vt; exact Hj. }
    assert (E6 : l i = - (times nx X theta i + times nx X x i)).
    { rewrite <- (XP l i Hi), <- times_plus, <- times_opp. apply times_ext. intros j Hj. apply vl; exact Hj. }
    rewrite vtx, E3, E4 in E2 by exact Hi. rewrite E6, E5. rewrite E1 in E2. lra.
  Qed.

  (* Sh x + Rh u + B' l' = ru *)
  Lemma stage_u i : (i < nu)%nat ->
    times nx Sh x i + times nu Rh u i + ttimes nx B l' i = ru i.
  Proof.
    intro Hi.
    assert (E1 : times nu SG (ttimes nu SG u) i = times nu Rh u i - times nx SM (ttimes nu SM u) i).
    { rewrite (tm_tt nu nu SG SG (fun i j => Rh i j - gram nx SM i j)) by (intros j Hj; apply eSG; assumption).
      rewrite <- gram_times. unfold times. rewrite <- rsum_sub. apply rsum_ext; intros; ring. }
    assert (E2 : times nu SG (ttimes nu SG u) i = times nu SG tu i + times nu SG (ttimes nx Pm l') i).
    { rewrite <- !times_plus. apply times_ext. intros j Hj. apply vu; exact Hj. }
    assert (E3 : times nu SG (ttimes nx Pm l') i = times nx SM (ttimes nx AM l') i - ttimes nx B l' i).
    { rewrite (tm_tt_tr nu nx SG Pm (fun a b => rsum nx (fun k => AM a k * SM b k) - B a b))
        by (intros j Hj; apply eP; assumption).
      rewrite (tm_tt_tr nx nx SM AM (fun a b => rsum nx (fun k => AM a k * SM b k))) by reflexivity.
      unfold ttimes. rewrite <- rsum_sub. apply rsum_ext; intros; ring. }
    assert (E4 : times nx Sh x i = - times nx SM (ttimes nx M (fun j => - x j)) i).
    { rewrite (tm_tt nx nx SM M Sh) by (intros j Hj; apply eSM; assumption). rewrite times_opp. ring. }
    assert (E5 : times nx SM (ttimes nx M (fun j => - x j)) i =
                 times nx SM tx i + times nx SM (ttimes nu SM u) i + times nx SM (ttimes nx AM l') i).
    { rewrite <- !times_plus. apply times_ext. intros j Hj. apply vx; exact Hj. }
    rewrite vtu, E3, E1 in E2 by exact Hi. rewrite E4, E5. lra.
  Qed.

  (* - x - Pi l = theta *)
  Lemma stage_inv i : (i < nx)%nat -> - x i - times nx Pi l i = theta i.
  Proof. intro Hi. rewrite vl by exact Hi. ring. Qed.

  (* the next stage: A x + B u - x1 - sigma l' = r2 *)
  Variables (sigma : R) (Pi' : nat -> nat -> R) (r2 x1 : nat -> R).
  Hypothesis ePi' : forall i j, (i < nx)%nat -> (j < nx)%nat ->
    Pi' i j = (if Nat.eqb i j then sigma else 0) + gram nu Pm i j + gram nx AM i j.
  Hypothesis vnext : forall i, (i < nx)%nat ->
    - x1 i - times nx Pi' l' i = times nu Pm tu i + times nx AM tx i + r2 i.

  Lemma stage_next i : (i < nx)%nat ->
    times nx A x i + times nu B u i - x1 i - sigma * l' i = r2 i.
  Proof.
    intro Hi.
    assert (E1 : times nx Pi' l' i = sigma * l' i + times nu Pm (ttimes nx Pm l') i + times nx AM (ttimes nx AM l') i).
    { rewrite <- !gram_times. unfold times at 1.
      rewrite (rsum_ext nx _ (fun j => (if Nat.eqb j i then sigma * l' j else 0) + gram nu Pm i j * l' j + gram nx AM i j * l' j)).
      - rewrite !rsum_add, rsum_if_eq by exact Hi. reflexivity.
      - intros j Hj. rewrite ePi' by assumption. rewrite (Nat.eqb_sym j i). destruct (Nat.eqb i j); ring. }
    assert (E2 : times nu Pm tu i + times nu Pm (ttimes nx Pm l') i = times nu Pm (ttimes nu SG u) i).
    { rewrite <- times_plus. apply times_ext. intros j Hj. symmetry. apply vu; exact Hj. }
    assert (E3 : times nu Pm (ttimes nu SG u) i = times nx AM (ttimes nu SM u) i - times nu B u i).
    { rewrite (tm_tt nu nu Pm SG (fun a b => rsum nx (fun k => AM a k * SM b k) - B a b))
        by (intros j Hj; apply eP; assumption).
      rewrite (tm_tt nx nu AM SM (fun a b => rsum nx (fun k => AM a k * SM b k))) by reflexivity.
      unfold times. rewrite <- rsum_sub. apply rsum_ext; intros; ring. }
    assert (E4 : times nx AM tx i + times nx AM (ttimes nu SM u) i + times nx AM (ttimes nx AM l') i =
                 times nx AM (ttimes nx M (fun j => - x j)) i).
    { rewrite <- !times_plus. apply times_ext. intros j Hj. symmetry. apply vx; exact Hj. }
    assert (E5 : times nx AM (ttimes nx M (fun j => - x j)) i = - times nx A x i).
    { rewrite (tm_tt nx nx AM M A) by (intros j Hj; apply eAM; assumption). apply times_opp. }
    specialize (vnext i Hi). lra.
  Qed.
End Stage.

(* ---------- positive definiteness along the recursion ---------- *)
Section Convex.
  Variables (nx nu : nat) (sigma : R) (Hs : 0 < sigma).
  Variables (Qh X Pi M : nat -> nat -> R) (Sh SM : nat -> nat -> R) (Rh : nat -> nat -> R).
  (* the stage form dominates sigma |.|^2 *)
  Hypothesis form : forall x u,
    sigma * (rsum nx (fun i => x i * x i) + rsum nu (fun i => u i * u i)) <=
    qform nx Qh x + 2 * rsum nu (fun i => u i * times nx Sh x i) + qform nu Rh u.
  Hypothesis ePX : forall i j, (i < nx)%nat -> (j < nx)%nat ->
    rsum nx (fun k => Pi i k * X k j) = if Nat.eqb i j then 1 else 0.
  Hypothesis pPi : forall x, 0 <= qform nx Pi x.

  Lemma X_nonneg x : 0 <= qform nx X x.
  Proof.
    replace (qform nx X x) with (qform nx Pi (times nx X x)); [apply pPi|].
    rewrite !qform_times. rewrite (rsum_ext nx _ (fun i => times nx X x i * x i)).
    - apply dot_comm.
    - intros i Hi. rewrite (PX nx X Pi ePX) by exact Hi. reflexivity.
  Qed.

  Lemma form_x x : sigma * rsum nx (fun i => x i * x i) <= qform nx Qh x.
  Proof.
    assert (F := form x (fun _ => 0)). cbv beta in F.
    assert (E1 : rsum nu (fun _ : nat => 0 * 0) = 0) by (apply rsum_zero; intros; ring).
    assert (E2 : rsum nu (fun i : nat => 0 * times nx Sh x i) = 0) by (apply rsum_zero; intros; ring).
    assert (E3 : qform nu Rh (fun _ => 0) = 0)
      by (apply rsum_zero; intros; apply rsum_zero; intros; ring).
    rewrite E2, E3 in F. match type of F with context [rsum nu ?f] => replace (rsum nu f) with 0 in F by (symmetry; apply rsum_zero; intros; ring) end. lra.
  Qed.

  Lemma M_posdef : posdef nx (fun i j => Qh i j + X i j).
  Proof.
    intros x Hx. rewrite qform_plus. assert (F := form_x x). assert (G := X_nonneg x).
    assert (S := sq_pos nx x Hx). nra.
  Qed.

  Hypothesis eM : forall i j, (i < nx)%nat -> (j < nx)%nat -> gram nx M i j = Qh i j + X i j.
  Hypothesis eSM : forall i j, (i < nu)%nat -> (j < nx)%nat -> rsum nx (fun k => SM i k * M j k) = Sh i j.
  (* M' can be solved against *)
  Hypothesis solvable : forall b : nat -> R, exists x, forall i, (i < nx)%nat -> ttimes nx M x i = b i.

  Lemma SG_posdef : posdef nu (fun i j => Rh i j - gram nx SM i j).
  Proof.
    intros u Hu. rewrite qform_minus, qform_gram.
    destruct (solvable (fun i => - ttimes nu SM u i)) as [x Ex].
    set (y := ttimes nu SM u) in *.
    assert (E1 : qform nx Qh x + qform nx X x = rsum nx (fun k => y k * y k)).
    { rewrite <- qform_plus. rewrite (qform_ext nx _ (gram nx M)) by (intros; symmetry; apply eM; assumption).
      rewrite qform_gram. apply rsum_ext. intros k Hk. rewrite Ex by exact Hk. ring. }
    assert (E2 : rsum nu (fun i => u i * times nx Sh x i) = - rsum nx (fun k => y k * y k)).
    { rewrite (rsum_ext nu _ (fun i => u i * times nx SM (ttimes nx M x) i)).
      - rewrite dot_times, <- rsum_opp. apply rsum_ext. intros k Hk. rewrite Ex by exact Hk. fold y. ring.
      - intros i Hi. rewrite (tm_tt nx nx SM M Sh) by (intros; apply eSM; assumption). reflexivity. }
    assert (F := form x u). rewrite E2 in F.
    assert (G := X_nonneg x). assert (S1 := sq_pos nu u Hu). assert (S2 := sq_nonneg nx x). nra.
  Qed.

  Variables (Pm AM : nat -> nat -> R).
  Lemma next_posdef :
    posdef nx (fun i j => (if Nat.eqb i j then sigma else 0) + gram nu Pm i j + gram nx AM i j).
  Proof.
    intros x Hx. rewrite (qform_plus nx (fun i j => (if Nat.eqb i j then sigma else 0) + gram nu Pm i j)),
      (qform_plus nx (fun i j => if Nat.eqb i j then sigma else 0)), qform_scaled, !qform_gram.
    assert (S1 := sq_pos nx x Hx). assert (S2 := sq_nonneg nu (ttimes nx Pm x)).
    assert (S3 := sq_nonneg nx (ttimes nx AM x)). nra.
  Qed.
End Convex.
