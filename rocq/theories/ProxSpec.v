(* Distances between primal-dual points, and one inexact proximal step of a convex QP.
   Pure mathematics over the reals; the only definition of the model used is [phi]. *)
From Verif Require Export PropsKKT.
Local Open Scope R_scope.

(* ---------- specification ---------- *)
(* a primal-dual point (z,l,v) *)
Record pt : Type := mkPt { pz : nat -> R; pl : nat -> R; pv : nat -> R }.
Definition pminus (u w : pt) : pt :=
  mkPt (fun i => pz u i - pz w i) (fun i => pl u i - pl w i) (fun i => pv u i - pv w i).
Definition ip (P : QP) (u w : pt) : R :=
  rsum (n_z P) (fun i => pz u i * pz w i) + rsum (n_l P) (fun i => pl u i * pl w i) +
  rsum (n_v P) (fun i => pv u i * pv w i).
Definition nrm (P : QP) (u : pt) : R := sqrt (ip P u u).
Definition pdist (P : QP) (u w : pt) : R := nrm P (pminus u w).
(* Frobenius norm of A *)
Definition fro (P : QP) : R := sqrt (rsum (n_v P) (fun k => rsum (n_z P) (fun i => cA P k i * cA P k i))).

(* the residual of the proximal subproblem centred at xb, at the point u: its entries *)
Definition gap (P : QP) (sigma : R) (u xb : pt) (k : nat) : R :=
  margin P (pz u) k + sigma * (pv u k - pv xb k).
Definition sub_at (P : QP) (alpha sigma : R) (u xb : pt) : pt :=
  mkPt (fun i => lagr P (pz u) (pl u) (pv u) i + sigma * (pz u i - pz xb i))
       (fun k => ch P k - times (n_z P) (cG P) (pz u) k + sigma * (pl u k - pl xb k))
       (fun k => phi alpha (gap P sigma u xb k) (pv u k)).
(* clamping the inequality duals at zero *)
Definition clamp_duals (u : pt) : pt := mkPt (pz u) (pl u) (fun k => Rmax (pv u k) 0).
(* the natural residual: all zero exactly at the KKT points *)
Definition natural (P : QP) (u : pt) : pt :=
  mkPt (lagr P (pz u) (pl u) (pv u)) (fun k => ch P k - times (n_z P) (cG P) (pz u) k)
       (fun k => Rmin (margin P (pz u) k) (pv u k)).

(* error constants *)
Definition mu_of (alpha : R) : R := 2 / alpha.
Definition kappa_of (P : QP) (alpha sigma : R) : R := (1 + mu_of alpha * (fro P + Rabs (1 - sigma))) / sigma.

(* ---------- Cauchy-Schwarz ---------- *)
Lemma discriminant A B C : 0 <= A -> 0 <= C -> (forall t, 0 <= A - 2 * t * B + t * t * C) -> B * B <= A * C.
Proof.
  intros HA HC H. destruct (Req_dec C 0) as [Z|Z].
  - subst C. destruct (Req_dec B 0) as [ZB|ZB]; [subst B; lra|]. exfalso.
    specialize (H ((A + 1) / (2 * B))).
    replace (A - 2 * ((A + 1) / (2 * B)) * B + (A + 1) / (2 * B) * ((A + 1) / (2 * B)) * 0) with (-1) in H
      by (field; exact ZB). lra.
  - specialize (H (B / C)).
    replace (A - 2 * (B / C) * B + B / C * (B / C) * C) with (A - B * B / C) in H by (field; exact Z).
    assert (0 < C) by lra.
    apply Rmult_le_reg_r with (/ C); [apply Rinv_0_lt_compat; assumption|].
    replace (A * C * / C) with A by (field; exact Z). unfold Rdiv in H. lra.
Qed.
Lemma cs_sum n f g : rsum n (fun i => f i * g i) * rsum n (fun i => f i * g i) <=
  rsum n (fun i => f i * f i) * rsum n (fun i => g i * g i).
Proof.
  apply discriminant.
  - apply rsum_nonneg; intros; apply Rle_0_sqr.
  - apply rsum_nonneg; intros; apply Rle_0_sqr.
  - intro t. replace (_ - _ + _) with (rsum n (fun i => (f i - t * g i) * (f i - t * g i))).
    + apply rsum_nonneg; intros; apply Rle_0_sqr.
    + rewrite <- !rsum_scal, <- rsum_sub, <- rsum_add. apply rsum_ext; intros; ring.
Qed.

Section Pts.
  Variable P : QP.
  Notation nz := (n_z P). Notation nl := (n_l P). Notation nv := (n_v P).
  Notation ipp := (ip P). Notation nr := (nrm P).

  Lemma ip_nonneg u : 0 <= ipp u u.
  Proof.
    unfold ip.
    assert (0 <= rsum nz (fun i => pz u i * pz u i)) by (apply rsum_nonneg; intros; apply Rle_0_sqr).
    assert (0 <= rsum nl (fun i => pl u i * pl u i)) by (apply rsum_nonneg; intros; apply Rle_0_sqr).
    assert (0 <= rsum nv (fun i => pv u i * pv u i)) by (apply rsum_nonneg; intros; apply Rle_0_sqr).
    lra.
  Qed.
  Lemma ip_lin t u w : ipp (mkPt (fun i => pz u i - t * pz w i) (fun i => pl u i - t * pl w i) (fun i => pv u i - t * pv w i))
                          (mkPt (fun i => pz u i - t * pz w i) (fun i => pl u i - t * pl w i) (fun i => pv u i - t * pv w i)) =
    ipp u u - 2 * t * ipp u w + t * t * ipp w w.
  Proof.
    unfold ip; cbn [pz pl pv].
    assert (E : forall n f g, rsum n (fun i => (f i - t * g i) * (f i - t * g i)) =
       rsum n (fun i => f i * f i) - 2 * t * rsum n (fun i => f i * g i) + t * t * rsum n (fun i => g i * g i)).
    { intros n f g. rewrite <- !rsum_scal, <- rsum_sub, <- rsum_add. apply rsum_ext; intros; ring. }
    rewrite !E. ring.
  Qed.
  Lemma nrm_pos u : 0 <= nr u.
  Proof. apply sqrt_pos. Qed.
  Lemma nrm_sq u : nr u * nr u = ipp u u.
  Proof. apply sqrt_sqrt, ip_nonneg. Qed.
  Lemma abs_le_sq a b : 0 <= b -> a * a <= b * b -> Rabs a <= b.
  Proof. intros Hb H. apply Rsqr_le_abs_0 in H. rewrite (Rabs_pos_eq b) in H by exact Hb. exact H. Qed.
  Lemma cs u w : Rabs (ipp u w) <= nr u * nr w.
  Proof.
    apply abs_le_sq; [apply Rmult_le_pos; apply nrm_pos|].
    replace (nr u * nr w * (nr u * nr w)) with ((nr u * nr u) * (nr w * nr w)) by ring. rewrite !nrm_sq.
    apply discriminant; try apply ip_nonneg. intro t. rewrite <- ip_lin. apply ip_nonneg.
  Qed.
  Lemma cs_le u w : ipp u w <= nr u * nr w.
  Proof. eapply Rle_trans; [apply Rle_abs|apply cs]. Qed.
  Lemma nrm_ext u w : (forall i, (i < nz)%nat -> pz u i = pz w i) -> (forall i, (i < nl)%nat -> pl u i = pl w i) ->
    (forall i, (i < nv)%nat -> pv u i = pv w i) -> nr u = nr w.
  Proof.
    intros E1 E2 E3. unfold nrm, ip. f_equal. f_equal; [f_equal|]; apply rsum_ext; intros i Hi;
      rewrite ?E1, ?E2, ?E3 by exact Hi; reflexivity.
  Qed.
  Lemma nrm_le_sq u b : 0 <= b -> ipp u u <= b * b -> nr u <= b.
  Proof.
    intros Hb H. rewrite <- (Rabs_pos_eq (nr u)) by apply nrm_pos. apply abs_le_sq; [exact Hb|]. rewrite nrm_sq. exact H.
  Qed.
  Lemma triangle u v w : pdist P u w <= pdist P u v + pdist P v w.
  Proof.
    unfold pdist. set (a := pminus u v). set (b := pminus v w).
    apply nrm_le_sq; [assert (K1 := nrm_pos a); assert (K2 := nrm_pos b); lra|].
    assert (E : ipp (pminus u w) (pminus u w) = ipp a a + 2 * ipp a b + ipp b b).
    { unfold ip, a, b, pminus; cbn [pz pl pv].
      assert (E : forall n (f g h : nat -> R), rsum n (fun i => (f i - h i) * (f i - h i)) =
        rsum n (fun i => (f i - g i) * (f i - g i)) + 2 * rsum n (fun i => (f i - g i) * (g i - h i)) +
        rsum n (fun i => (g i - h i) * (g i - h i))).
      { intros n f g h. rewrite <- rsum_scal, <- !rsum_add. apply rsum_ext; intros; ring. }
      rewrite (E nz (pz u) (pz v) (pz w)), (E nl (pl u) (pl v) (pl w)), (E nv (pv u) (pv v) (pv w)). ring. }
    rewrite E, <- !nrm_sq. assert (K := cs_le a b). lra.
  Qed.
  Lemma pdist_pos u w : 0 <= pdist P u w. Proof. apply nrm_pos. Qed.
  Lemma pdist_sym u w : pdist P u w = pdist P w u.
  Proof. unfold pdist, nrm, ip, pminus; cbn [pz pl pv]. f_equal. f_equal; [f_equal|]; apply rsum_ext; intros; ring. Qed.
  Lemma norm_plus u v w : (forall i, pz u i = pz v i + pz w i) -> (forall i, pl u i = pl v i + pl w i) ->
    (forall i, pv u i = pv v i + pv w i) -> nr u <= nr v + nr w.
  Proof.
    intros E1 E2 E3. set (o := mkPt (fun _ => 0) (fun _ => 0) (fun _ => 0)).
    set (nw := mkPt (fun i => - pz w i) (fun i => - pl w i) (fun i => - pv w i)).
    assert (T := triangle v o nw). unfold pdist in T.
    rewrite (nrm_ext (pminus v nw) u), (nrm_ext (pminus v o) v), (nrm_ext (pminus o nw) w) in T; [exact T|..];
      intros i Hi; unfold pminus, o, nw; cbn [pz pl pv]; rewrite ?E1, ?E2, ?E3; ring.
  Qed.
  Lemma entry_z u i : (i < nz)%nat -> Rabs (pz u i) <= nr u.
  Proof.
    intro Hi. apply abs_le_sq; [apply nrm_pos|]. rewrite nrm_sq. unfold ip.
    assert (K := rsum_term_le nz (fun i => pz u i * pz u i) i Hi (fun j _ => Rle_0_sqr _)). cbv beta in K.
    assert (0 <= rsum nl (fun i => pl u i * pl u i)) by (apply rsum_nonneg; intros; apply Rle_0_sqr).
    assert (0 <= rsum nv (fun i => pv u i * pv u i)) by (apply rsum_nonneg; intros; apply Rle_0_sqr). lra.
  Qed.
  Lemma entry_l u i : (i < nl)%nat -> Rabs (pl u i) <= nr u.
  Proof.
    intro Hi. apply abs_le_sq; [apply nrm_pos|]. rewrite nrm_sq. unfold ip.
    assert (K := rsum_term_le nl (fun i => pl u i * pl u i) i Hi (fun j _ => Rle_0_sqr _)). cbv beta in K.
    assert (0 <= rsum nz (fun i => pz u i * pz u i)) by (apply rsum_nonneg; intros; apply Rle_0_sqr).
    assert (0 <= rsum nv (fun i => pv u i * pv u i)) by (apply rsum_nonneg; intros; apply Rle_0_sqr). lra.
  Qed.
  Lemma entry_v u i : (i < nv)%nat -> Rabs (pv u i) <= nr u.
  Proof.
    intro Hi. apply abs_le_sq; [apply nrm_pos|]. rewrite nrm_sq. unfold ip.
    assert (K := rsum_term_le nv (fun i => pv u i * pv u i) i Hi (fun j _ => Rle_0_sqr _)). cbv beta in K.
    assert (0 <= rsum nz (fun i => pz u i * pz u i)) by (apply rsum_nonneg; intros; apply Rle_0_sqr).
    assert (0 <= rsum nl (fun i => pl u i * pl u i)) by (apply rsum_nonneg; intros; apply Rle_0_sqr). lra.
  Qed.

  (* ||A'm|| <= ||A||_F ||m|| *)
  Lemma fro_pos : 0 <= fro P. Proof. apply sqrt_pos. Qed.
  Lemma fro_bound m : 
    nr (mkPt (ttimes nv (cA P) m) (fun _ => 0) (fun _ => 0)) <= fro P * nr (mkPt (fun _ => 0) (fun _ => 0) m).
  Proof.
    apply nrm_le_sq; [apply Rmult_le_pos; [apply fro_pos|apply nrm_pos]|].
    replace (fro P * nr (mkPt (fun _ => 0) (fun _ => 0) m) * (fro P * nr (mkPt (fun _ => 0) (fun _ => 0) m)))
      with (fro P * fro P * (nr (mkPt (fun _ => 0) (fun _ => 0) m) * nr (mkPt (fun _ => 0) (fun _ => 0) m))) by ring.
    rewrite nrm_sq. unfold fro. rewrite sqrt_sqrt.
    2:{ apply rsum_nonneg; intros; apply rsum_nonneg; intros; apply Rle_0_sqr. }
    unfold ip; cbn [pz pl pv].
    rewrite !(rsum_zero _ (fun _ => 0 * 0)) by (intros; ring).
    rewrite rsum_swap, !Rplus_0_l, !Rplus_0_r, <- rsum_scal_r. apply rsum_le. intros i Hi. unfold ttimes.
    apply (cs_sum nv (fun k => cA P k i) m).
  Qed.
End Pts.

(* ---------- the penalised FB function controls the minimum ---------- *)
Lemma min_le_fb a b : Rabs (Rmin a b) <= 2 * Rabs (a + b - sqrt (a * a + b * b)).
Proof.
  assert (G : forall m M, m <= M -> Rabs m <= 2 * Rabs (m + M - sqrt (m * m + M * M))).
  { intros m M H.
    assert (Q0 : 0 <= m * m) by apply Rle_0_sqr. assert (Q1 : 0 <= M * M) by apply Rle_0_sqr.
    assert (Hs : 0 <= sqrt (m * m + M * M)) by apply sqrt_pos.
    assert (Q : sqrt (m * m + M * M) * sqrt (m * m + M * M) = m * m + M * M) by (apply sqrt_sqrt; lra).
    set (s := sqrt _) in *.
    destruct (Rle_dec m 0) as [Hm|Hm].
    - (* s >= M, so |m + M - s| = s - M - m >= -m *)
      assert (M <= s). { destruct (Rle_dec M 0); [lra|]. apply Rnot_lt_le; intro. nra. }
      rewrite (Rabs_left1 m) by lra. rewrite (Rabs_left1 (m + M - s)) by lra. lra.
    - (* 0 < m <= M: (m+M-s)(m+M+s) = 2mM and m+M+s <= 4M *)
      assert (s <= m + M) by (apply Rnot_lt_le; intro; nra).
      rewrite (Rabs_pos_eq m) by lra. rewrite (Rabs_pos_eq (m + M - s)) by lra.
      assert (E : (m + M - s) * (m + M + s) = 2 * m * M) by lra.
      apply Rnot_lt_le. intro L.
      assert ((m + M - s) * (m + M + s) <= (m + M - s) * (4 * M)) by (apply Rmult_le_compat_l; lra).
      assert ((m + M - s) * (4 * M) < m / 2 * (4 * M)) by (apply Rmult_lt_compat_r; lra). lra. }
  unfold Rmin. destruct (Rle_dec a b) as [H|H]; [apply G; exact H|].
  rewrite (Rplus_comm a b), (Rplus_comm (a * a)). apply G. lra.
Qed.
Lemma min_le_phi alpha a b : 0 < alpha < 1 -> Rabs (Rmin a b) <= mu_of alpha * Rabs (phi alpha a b).
Proof.
  intro Ha. assert (K := min_le_fb a b). unfold mu_of.
  assert (E : alpha * Rabs (a + b - sqrt (a * a + b * b)) <= Rabs (phi alpha a b)).
  { unfold phi. set (f := a + b - _) in *.
    destruct (Rle_dec a 0) as [Na|Na]; [|destruct (Rle_dec b 0) as [Nb|Nb]].
    - rewrite (Rmax_left 0 a) by exact Na. rewrite Rmult_0_r, Rmult_0_l, Rplus_0_r, Rabs_mult, (Rabs_pos_eq alpha) by lra. lra.
    - rewrite (Rmax_left 0 b) by exact Nb. rewrite Rmult_0_r, Rplus_0_r, Rabs_mult, (Rabs_pos_eq alpha) by lra. lra.
    - assert (Hf : 0 <= f).
      { unfold f. assert (Q0 : 0 < a * b) by (apply Rmult_lt_0_compat; lra).
        assert (Q1 : 0 <= a * a) by apply Rle_0_sqr. assert (Q2 : 0 <= b * b) by apply Rle_0_sqr.
        assert (Hs := sqrt_pos (a * a + b * b)).
        assert (Q : sqrt (a * a + b * b) * sqrt (a * a + b * b) = a * a + b * b) by (apply sqrt_sqrt; lra).
        set (s := sqrt _) in *. assert (s <= a + b); [|lra]. apply Rnot_lt_le; intro. nra. }
      assert (0 <= (1 - alpha) * Rmax 0 a * Rmax 0 b).
      { apply Rmult_le_pos; [apply Rmult_le_pos; [lra|]|]; apply Rmax_l. }
      assert (0 <= alpha * f) by (apply Rmult_le_pos; lra).
      rewrite (Rabs_pos_eq f), (Rabs_pos_eq (_ + _)) by lra. lra. }
  apply Rmult_le_reg_l with alpha; [lra|].
  replace (alpha * (2 / alpha * Rabs (phi alpha a b))) with (2 * Rabs (phi alpha a b)) by (field; lra).
  assert (alpha * Rabs (Rmin a b) <= alpha * (2 * Rabs (a + b - sqrt (a * a + b * b)))) by (apply Rmult_le_compat_l; lra).
  lra.
Qed.

(* ---------- one inexact proximal step ---------- *)
Section Step.
  Variable P : QP.
  Notation nz := (n_z P). Notation nl := (n_l P). Notation nv := (n_v P).
  Hypothesis Cv : convex P.

  Lemma lagr_minus z l v z' l' v' i :
    lagr P z l v i - lagr P z' l' v' i =
    times nz (cH P) (fun j => z j - z' j) i + ttimes nl (cG P) (fun j => l j - l' j) i +
    ttimes nv (cA P) (fun j => v j - v' j) i.
  Proof.
    unfold lagr.
    assert (A : forall m M x y, times m M (fun j => x j - y j) i = times m M x i - times m M y i).
    { intros. unfold times. rewrite <- rsum_sub. apply rsum_ext; intros; ring. }
    assert (B : forall m M x y, ttimes m M (fun j => x j - y j) i = ttimes m M x i - ttimes m M y i).
    { intros. unfold ttimes. rewrite <- rsum_sub. apply rsum_ext; intros; ring. }
    rewrite A, !B. ring.
  Qed.
  Lemma dot_tt n m M z v :
    rsum n (fun i => z i * ttimes m M v i) = rsum m (fun k => v k * times n M z k).
  Proof.
    unfold ttimes, times.
    transitivity (rsum n (fun i => rsum m (fun k => z i * (M k i * v k)))).
    { apply rsum_ext; intros i _. rewrite rsum_scal. reflexivity. }
    rewrite rsum_swap. apply rsum_ext; intros k _. rewrite <- rsum_scal. apply rsum_ext; intros i _. ring.
  Qed.
  Lemma dot_quad z : rsum nz (fun i => z i * times nz (cH P) z i) = quad P z.
  Proof.
    unfold quad, times. apply rsum_ext; intros i _. rewrite <- rsum_scal. apply rsum_ext; intros j _. ring.
  Qed.

  (* the KKT map of a convex QP is monotone *)
  Lemma kkt_monotone (u w : pt) :
    0 <= rsum nz (fun i => (pz u i - pz w i) * (lagr P (pz u) (pl u) (pv u) i - lagr P (pz w) (pl w) (pv w) i)) +
         rsum nl (fun k => (pl u k - pl w k) * (times nz (cG P) (pz w) k - times nz (cG P) (pz u) k)) +
         rsum nv (fun k => (pv u k - pv w k) * (margin P (pz u) k - margin P (pz w) k)).
  Proof.
    set (dz := fun j => pz u j - pz w j). set (dl := fun j => pl u j - pl w j). set (dv := fun j => pv u j - pv w j).
    assert (E1 : rsum nz (fun i => (pz u i - pz w i) * (lagr P (pz u) (pl u) (pv u) i - lagr P (pz w) (pl w) (pv w) i)) =
                 quad P dz + rsum nl (fun k => dl k * times nz (cG P) dz k) + rsum nv (fun k => dv k * times nz (cA P) dz k)).
    { rewrite <- dot_quad, <- (dot_tt nz nl (cG P) dz dl), <- (dot_tt nz nv (cA P) dz dv), <- !rsum_add.
      apply rsum_ext; intros i Hi. rewrite lagr_minus. unfold dz, dl, dv. ring. }
    assert (T : forall M k, times nz M dz k = times nz M (pz u) k - times nz M (pz w) k).
    { intros. unfold times, dz. rewrite <- rsum_sub. apply rsum_ext; intros; ring. }
    assert (E2 : rsum nl (fun k => (pl u k - pl w k) * (times nz (cG P) (pz w) k - times nz (cG P) (pz u) k)) =
                 - rsum nl (fun k => dl k * times nz (cG P) dz k)).
    { rewrite <- rsum_opp. apply rsum_ext; intros k Hk. rewrite T. unfold dl. ring. }
    assert (E3 : rsum nv (fun k => (pv u k - pv w k) * (margin P (pz u) k - margin P (pz w) k)) =
                 - rsum nv (fun k => dv k * times nz (cA P) dz k)).
    { rewrite <- rsum_opp. apply rsum_ext; intros k Hk. rewrite T. unfold dv, margin. ring. }
    rewrite E1, E2, E3. destruct Cv as [_ Q]. specialize (Q dz). lra.
  Qed.

  (* a point w with complementary slacks [a], solving the regularised KKT system up to e *)
  Lemma perturbed_step sigma (w e xb s : pt) (a : nat -> R) : 0 < sigma ->
    (forall i, (i < nz)%nat -> lagr P (pz w) (pl w) (pv w) i + sigma * (pz w i - pz xb i) = pz e i) ->
    (forall k, (k < nl)%nat -> ch P k - times nz (cG P) (pz w) k + sigma * (pl w k - pl xb k) = pl e k) ->
    (forall k, (k < nv)%nat -> gap P sigma w xb k = a k + pv e k /\ 0 <= a k /\ 0 <= pv w k /\ a k * pv w k = 0) ->
    KKT P (pz s) (pl s) (pv s) ->
    sigma * ip P (pminus w xb) (pminus w s) <= ip P e (pminus w s).
  Proof.
    intros Hs E1 E2 E3 (K1 & (K2 & K3) & K4). assert (M := kkt_monotone w s).
    unfold ip, pminus; cbn [pz pl pv].
    assert (F1 : rsum nz (fun i => (pz w i - pz s i) * (lagr P (pz w) (pl w) (pv w) i - lagr P (pz s) (pl s) (pv s) i)) =
       rsum nz (fun i => pz e i * (pz w i - pz s i)) - sigma * rsum nz (fun i => (pz w i - pz xb i) * (pz w i - pz s i))).
    { rewrite <- rsum_scal, <- rsum_sub. apply rsum_ext; intros i Hi. rewrite K1, <- E1 by exact Hi. ring. }
    assert (F2 : rsum nl (fun k => (pl w k - pl s k) * (times nz (cG P) (pz s) k - times nz (cG P) (pz w) k)) =
       rsum nl (fun i => pl e i * (pl w i - pl s i)) - sigma * rsum nl (fun i => (pl w i - pl xb i) * (pl w i - pl s i))).
    { rewrite <- rsum_scal, <- rsum_sub. apply rsum_ext; intros i Hi. rewrite K2, <- E2 by exact Hi. ring. }
    assert (F3 : rsum nv (fun k => (pv w k - pv s k) * (margin P (pz w) k - margin P (pz s) k)) <=
       rsum nv (fun i => pv e i * (pv w i - pv s i)) - sigma * rsum nv (fun i => (pv w i - pv xb i) * (pv w i - pv s i))).
    { rewrite <- rsum_scal, <- rsum_sub. apply rsum_le; intros k Hk.
      destruct (E3 k Hk) as (G1 & G2 & G3 & G4). destruct (K4 k Hk) as [S1 S2].
      assert (S3 : 0 <= margin P (pz s) k) by (unfold margin; specialize (K3 k Hk); lra).
      unfold gap in G1.
      replace (margin P (pz w) k) with (a k + pv e k - sigma * (pv w k - pv xb k)) by lra.
      assert (0 <= pv w k * margin P (pz s) k) by (apply Rmult_le_pos; assumption).
      assert (0 <= pv s k * a k) by (apply Rmult_le_pos; assumption). nra. }
    lra.
  Qed.

  (* the same, in norms *)
  Lemma perturbed_bounds sigma (w e xb s : pt) k : 0 < sigma -> nrm P e <= k * sigma -> 0 <= k ->
    sigma * ip P (pminus w xb) (pminus w s) <= ip P e (pminus w s) ->
    pdist P w s <= pdist P xb s + k /\
    pdist P w s * pdist P w s + pdist P w xb * pdist P w xb <= pdist P xb s * pdist P xb s + 2 * k * pdist P w s.
  Proof.
    intros Hs He Hk H.
    assert (E : 2 * ip P (pminus w xb) (pminus w s) =
       pdist P w s * pdist P w s + pdist P w xb * pdist P w xb - pdist P xb s * pdist P xb s).
    { unfold pdist. rewrite !nrm_sq. unfold ip, pminus; cbn [pz pl pv].
      assert (E : forall n (f g h : nat -> R), 2 * rsum n (fun i => (f i - g i) * (f i - h i)) =
        rsum n (fun i => (f i - h i) * (f i - h i)) + rsum n (fun i => (f i - g i) * (f i - g i)) -
        rsum n (fun i => (g i - h i) * (g i - h i))).
      { intros n f g h. rewrite <- rsum_scal, <- rsum_add, <- rsum_sub. apply rsum_ext; intros; ring. }
      rewrite !Rmult_plus_distr_l, (E nz (pz w) (pz xb) (pz s)), (E nl (pl w) (pl xb) (pl s)), (E nv (pv w) (pv xb) (pv s)). ring. }
    assert (C : ip P e (pminus w s) <= k * sigma * pdist P w s).
    { eapply Rle_trans; [apply cs_le|]. unfold pdist. apply Rmult_le_compat_r; [apply nrm_pos|exact He]. }
    assert (D : ip P (pminus w xb) (pminus w s) <= k * pdist P w s).
    { apply Rmult_le_reg_l with sigma; [exact Hs|]. lra. }
    split; [|lra].
    (* <w-s, w-s> = <w-xb, w-s> + <xb-s, w-s> *)
    assert (F : pdist P w s * pdist P w s = ip P (pminus w xb) (pminus w s) + ip P (pminus xb s) (pminus w s)).
    { unfold pdist. rewrite nrm_sq. unfold ip, pminus; cbn [pz pl pv].
      assert (E' : forall n (f g h : nat -> R), rsum n (fun i => (f i - h i) * (f i - h i)) =
         rsum n (fun i => (f i - g i) * (f i - h i)) + rsum n (fun i => (g i - h i) * (f i - h i))).
      { intros n f g h. rewrite <- rsum_add. apply rsum_ext; intros; ring. }
      rewrite (E' nz (pz w) (pz xb) (pz s)), (E' nl (pl w) (pl xb) (pl s)), (E' nv (pv w) (pv xb) (pv s)). ring. }
    assert (G : ip P (pminus xb s) (pminus w s) <= pdist P xb s * pdist P w s) by apply cs_le.
    assert (Z1 := pdist_pos P w s). assert (Z2 := pdist_pos P xb s).
    destruct (Req_dec (pdist P w s) 0) as [Z|Z]; [lra|].
    apply Rmult_le_reg_r with (pdist P w s); [lra|]. lra.
  Qed.

  (* the error of an approximate solution u of the subproblem, in terms of its residual *)
  Section Approx.
    Variables (alpha sigma : R) (u xb : pt).
    Hypothesis Ha : 0 < alpha < 1.
    Hypothesis Hs : 0 < sigma.
    Notation E := (nrm P (sub_at P alpha sigma u xb)).
    Notation mu := (mu_of alpha).
    Notation kap := (kappa_of P alpha sigma).
    Let m k := Rmin (gap P sigma u xb k) (pv u k).
    Let w := mkPt (pz u) (pl u) (fun k => pv u k - m k).

    Lemma mu_pos : 0 < mu.
    Proof. unfold mu_of. apply Rmult_lt_0_compat; [lra|apply Rinv_0_lt_compat; lra]. Qed.
    Lemma kappa_pos : 0 < kap.
    Proof.
      unfold kappa_of. apply Rmult_lt_0_compat; [|apply Rinv_0_lt_compat; exact Hs].
      assert (0 <= mu * (fro P + Rabs (1 - sigma))); [|lra].
      apply Rmult_le_pos; [left; apply mu_pos|]. assert (A := fro_pos P). assert (B := Rabs_pos (1 - sigma)). lra.
    Qed.
    Lemma v_part_le (q : nat -> R) c : 0 <= c ->
      (forall k, (k < nv)%nat -> Rabs (q k) <= c * Rabs (phi alpha (gap P sigma u xb k) (pv u k))) ->
      nrm P (mkPt (fun _ => 0) (fun _ => 0) q) <= c * E.
    Proof.
      intros Hc H. apply nrm_le_sq; [apply Rmult_le_pos; [exact Hc|apply nrm_pos]|].
      replace (c * E * (c * E)) with (c * c * (E * E)) by ring. rewrite nrm_sq. unfold ip; cbn [pz pl pv sub_at].
      rewrite !(rsum_zero _ (fun _ => 0 * 0)) by (intros; ring). rewrite !Rplus_0_l.
      set (A := rsum nz _). set (B := rsum nl _). set (C := rsum nv (fun i => phi _ _ _ * _)).
      assert (0 <= A) by (apply rsum_nonneg; intros; apply Rle_0_sqr).
      assert (0 <= B) by (apply rsum_nonneg; intros; apply Rle_0_sqr).
      assert (rsum nv (fun k => q k * q k) <= c * c * C).
      { unfold C. rewrite <- rsum_scal. apply rsum_le. intros k Hk. specialize (H k Hk).
        set (f := phi _ _ _) in *.
        assert (X : Rabs (q k) * Rabs (q k) <= c * Rabs f * (c * Rabs f)) by (apply Rmult_le_compat; auto using Rabs_pos).
        rewrite <- (Rabs_pos_eq (q k * q k)) by apply Rle_0_sqr. rewrite Rabs_mult.
        assert (Y : Rabs f * Rabs f = f * f) by (rewrite <- Rabs_mult; apply Rabs_pos_eq, Rle_0_sqr).
        replace (c * c * (f * f)) with (c * Rabs f * (c * Rabs f)) by (rewrite <- Y; ring). exact X. }
      assert (0 <= c * c) by apply Rle_0_sqr.
      assert (0 <= c * c * A) by (apply Rmult_le_pos; assumption).
      assert (0 <= c * c * B) by (apply Rmult_le_pos; assumption). lra.
    Qed.
    Lemma m_bound : nrm P (mkPt (fun _ => 0) (fun _ => 0) m) <= mu * E.
    Proof. apply v_part_le; [left; apply mu_pos|]. intros k Hk. apply min_le_phi. exact Ha. Qed.

    Let e := mkPt (fun i => pz (sub_at P alpha sigma u xb) i - ttimes nv (cA P) m i)
                  (pl (sub_at P alpha sigma u xb)) (fun k => (1 - sigma) * m k).
    Lemma e_bound : nrm P e <= kap * E * sigma.
    Proof.
      set (r0 := mkPt (pz (sub_at P alpha sigma u xb)) (pl (sub_at P alpha sigma u xb)) (fun _ => 0)).
      set (e1 := mkPt (fun i => - ttimes nv (cA P) m i) (fun _ => 0) (fun _ => 0)).
      set (e2 := mkPt (fun _ => 0) (fun _ => 0) (fun k => (1 - sigma) * m k)).
      set (e12 := mkPt (fun i => - ttimes nv (cA P) m i) (fun _ => 0) (fun k => (1 - sigma) * m k)).
      assert (T1 : nrm P e <= nrm P r0 + nrm P e12).
      { apply norm_plus; intro i; unfold e, r0, e12; cbn [pz pl pv]; ring. }
      assert (T2 : nrm P e12 <= nrm P e1 + nrm P e2).
      { apply norm_plus; intro i; unfold e1, e2, e12; cbn [pz pl pv]; ring. }
      assert (B0 : nrm P r0 <= E).
      { apply nrm_le_sq; [apply nrm_pos|]. rewrite nrm_sq. unfold ip, r0; cbn [pz pl pv].
        rewrite (rsum_zero nv (fun _ => 0 * 0)) by (intros; ring).
        assert (0 <= rsum nv (fun i => pv (sub_at P alpha sigma u xb) i * pv (sub_at P alpha sigma u xb) i))
          by (apply rsum_nonneg; intros; apply Rle_0_sqr). lra. }
      assert (Bm := m_bound).
      assert (B1 : nrm P e1 <= fro P * (mu * E)).
      { rewrite (nrm_ext P e1 (mkPt (ttimes nv (cA P) (fun k => - m k)) (fun _ => 0) (fun _ => 0))).
        - eapply Rle_trans; [apply fro_bound|]. apply Rmult_le_compat_l; [apply fro_pos|].
          eapply Rle_trans; [|exact Bm]. right. unfold nrm, ip; cbn [pz pl pv]. f_equal. f_equal.
          apply rsum_ext; intros; ring.
        - intros i Hi. unfold e1; cbn [pz]. unfold ttimes. rewrite <- rsum_opp. apply rsum_ext; intros; ring.
        - intros; reflexivity.
        - intros; reflexivity. }
      assert (B2 : nrm P e2 <= Rabs (1 - sigma) * (mu * E)).
      { rewrite <- Rmult_assoc. apply v_part_le.
        - apply Rmult_le_pos; [apply Rabs_pos|left; apply mu_pos].
        - intros k Hk. rewrite Rabs_mult, Rmult_assoc. apply Rmult_le_compat_l; [apply Rabs_pos|]. apply min_le_phi. exact Ha. }
      replace (kap * E * sigma) with ((1 + mu * (fro P + Rabs (1 - sigma))) * E) by (unfold kappa_of; field; lra).
      nra.
    Qed.
    Lemma w_step s : KKT P (pz s) (pl s) (pv s) ->
      sigma * ip P (pminus w xb) (pminus w s) <= ip P e (pminus w s).
    Proof.
      intro K. apply (perturbed_step sigma w e xb s (fun k => gap P sigma u xb k - m k) Hs); [| | |exact K].
      - intros i Hi. unfold w, e; cbn [pz pl pv sub_at]. unfold lagr.
        assert (X : ttimes nv (cA P) (fun k => pv u k - m k) i = ttimes nv (cA P) (pv u) i - ttimes nv (cA P) m i).
        { unfold ttimes. rewrite <- rsum_sub. apply rsum_ext; intros; ring. }
        rewrite X. ring.
      - intros k Hk. unfold w, e; cbn [pz pl pv sub_at]. ring.
      - intros k Hk. unfold w, e, gap; cbn [pz pl pv]. fold (gap P sigma u xb k).
        split; [unfold gap; ring|]. unfold m, Rmin. destruct (Rle_dec (gap P sigma u xb k) (pv u k)).
        + split; [lra|]. split; [lra|]. ring.
        + split; [lra|]. split; [lra|]. ring.
    Qed.
    Lemma clamp_near : pdist P (clamp_duals u) w <= mu * E.
    Proof.
      unfold pdist. rewrite (nrm_ext P _ (mkPt (fun _ => 0) (fun _ => 0) (fun k => Rmax (pv u k) 0 - (pv u k - m k)))).
      - apply v_part_le; [left; apply mu_pos|]. intros k Hk.
        eapply Rle_trans; [|apply min_le_phi; exact Ha]. fold (m k). unfold m, Rmin, Rmax, Rabs.
        repeat match goal with |- context [Rle_dec ?a ?b] => destruct (Rle_dec a b) end;
        repeat match goal with |- context [Rcase_abs ?a] => destruct (Rcase_abs a) end; lra.
      - intros; unfold pminus, clamp_duals, w; cbn [pz]; ring.
      - intros; unfold pminus, clamp_duals, w; cbn [pl]; ring.
      - intros; reflexivity.
    Qed.

    (* the new iterate: clamp_duals u *)
    Lemma inexact_step s : KKT P (pz s) (pl s) (pv s) ->
      let x' := clamp_duals u in let D := pdist P xb s in
      pdist P x' s <= D + (kap + mu) * E /\
      pdist P x' s * pdist P x' s + pdist P x' xb * pdist P x' xb <=
        D * D + 2 * E * ((kap + 3 * mu) * D + (kap + mu) * (kap + mu) * E).
    Proof.
      intro K. cbv zeta. set (x' := clamp_duals u). set (D := pdist P xb s).
      assert (PE := nrm_pos P (sub_at P alpha sigma u xb)). set (EE := E) in *.
      assert (PK := kappa_pos). assert (PM := mu_pos).
      destruct (perturbed_bounds sigma w e xb s (kap * EE) Hs) as [B1 B2].
      - apply e_bound.
      - apply Rmult_le_pos; lra.
      - apply w_step. exact K.
      - fold D in B1, B2. assert (CN := clamp_near). fold x' EE in CN.
        assert (T1 := triangle P x' w s). assert (T2 := triangle P x' w xb).
        assert (T3 := triangle P w s xb). rewrite (pdist_sym P s xb) in T3. fold D in T3.
        assert (Q1 := pdist_pos P x' s). assert (Q2 := pdist_pos P x' xb). assert (Q3 := pdist_pos P w s).
        assert (Q4 := pdist_pos P w xb). assert (Q5 := pdist_pos P xb s). fold D in Q5.
        set (a := pdist P w s) in *. set (b := pdist P w xb) in *. set (a' := pdist P x' s) in *. set (b' := pdist P x' xb) in *.
        set (k := kap * EE) in *. set (q := mu * EE) in *.
        assert (Pk : 0 <= k) by (apply Rmult_le_pos; lra). assert (Pq : 0 <= q) by (apply Rmult_le_pos; lra).
        split; [replace ((kap + mu) * EE) with (k + q) by (unfold k, q; ring); lra|].
        assert (S1 : a' * a' <= (a + q) * (a + q)) by (apply Rmult_le_compat; lra).
        assert (S2 : b' * b' <= (b + q) * (b + q)) by (apply Rmult_le_compat; lra).
        replace (2 * EE * ((kap + 3 * mu) * D + (kap + mu) * (kap + mu) * EE))
          with (2 * (k + 3 * q) * D + 2 * (k + q) * (k + q)) by (unfold k, q; ring).
        assert (S3 : 2 * k * a <= 2 * k * (D + k)) by (apply Rmult_le_compat_l; lra).
        assert (S4 : q * (a + b) <= q * (3 * D + 2 * k)) by (apply Rmult_le_compat_l; lra).
        nra.
    Qed.

    (* how far the new iterate is from satisfying the KKT conditions *)
    Lemma step_natural :
      let x' := clamp_duals u in let S0 := pdist P x' xb in
      let bound := (1 + mu * (fro P + 2 + sigma)) * E + sigma * S0 in
      (forall i, (i < nz)%nat -> Rabs (pz (natural P x') i) <= bound) /\
      (forall k, (k < nl)%nat -> Rabs (pl (natural P x') k) <= bound) /\
      (forall k, (k < nv)%nat -> Rabs (pv (natural P x') k) <= bound).
    Proof.
      cbv zeta. set (x' := clamp_duals u).
      assert (PE := nrm_pos P (sub_at P alpha sigma u xb)). 
      assert (PM := mu_pos). assert (PF := fro_pos P). assert (PS := pdist_pos P x' xb).
      set (q := fun k => pv x' k - pv u k).
      assert (Bq : forall k, Rabs (q k) <= Rabs (m k)).
      { intro k. unfold q, x', clamp_duals, m; cbn [pv]. unfold Rmin, Rmax, Rabs.
        repeat match goal with |- context [Rle_dec ?a ?b] => destruct (Rle_dec a b) end;
        repeat match goal with |- context [Rcase_abs ?a] => destruct (Rcase_abs a) end; lra. }
      assert (Bm : forall k, (k < nv)%nat -> Rabs (m k) <= mu * E).
      { intros k Hk. eapply Rle_trans; [|exact m_bound]. apply (entry_v P (mkPt (fun _ => 0) (fun _ => 0) m) k Hk). }
      assert (B0 : 0 <= mu * E) by (apply Rmult_le_pos; lra).
      assert (BF : 0 <= fro P * (mu * E)) by (apply Rmult_le_pos; lra).
      assert (BS : 0 <= sigma * (mu * E)) by (apply Rmult_le_pos; lra).
      assert (BD : 0 <= sigma * pdist P x' xb) by (apply Rmult_le_pos; lra).
      set (ES := E) in *.
      replace ((1 + mu * (fro P + 2 + sigma)) * ES) with (ES + fro P * (mu * ES) + 2 * (mu * ES) + sigma * (mu * ES)) by ring.
      split; [|split]; intros k Hk.
      - assert (X : pz (natural P x') k = pz (sub_at P alpha sigma u xb) k - sigma * pz (pminus x' xb) k +
                     ttimes nv (cA P) q k).
        { unfold natural, x', clamp_duals, sub_at, pminus, lagr, q; cbn [pz pl pv].
          assert (Y : ttimes nv (cA P) (fun k0 => Rmax (pv u k0) 0 - pv u k0) k =
                      ttimes nv (cA P) (fun k0 => Rmax (pv u k0) 0) k - ttimes nv (cA P) (pv u) k).
          { unfold ttimes. rewrite <- rsum_sub. apply rsum_ext; intros; ring. }
          unfold x', clamp_duals; cbn [pv]. rewrite Y. ring. }
        rewrite X.
        assert (K1 := entry_z P (sub_at P alpha sigma u xb) k Hk). fold ES in K1.
        assert (K2 := entry_z P (pminus x' xb) k Hk). fold (pdist P x' xb) in K2.
        assert (K3 : Rabs (ttimes nv (cA P) q k) <= fro P * (mu * ES)).
        { eapply Rle_trans; [apply (entry_z P (mkPt (ttimes nv (cA P) q) (fun _ => 0) (fun _ => 0)) k Hk)|].
          eapply Rle_trans; [apply fro_bound|]. apply Rmult_le_compat_l; [exact PF|].
          apply v_part_le; [lra|]. intros j Hj. eapply Rle_trans; [apply Bq|]. apply min_le_phi. exact Ha. }
        eapply Rle_trans; [apply Rabs_triang|]. eapply Rle_trans; [apply Rplus_le_compat_r; apply Rabs_triang|].
        rewrite Rabs_Ropp, Rabs_mult, (Rabs_pos_eq sigma) by lra.
        assert (sigma * Rabs (pz (pminus x' xb) k) <= sigma * pdist P x' xb) by (apply Rmult_le_compat_l; lra). lra.
      - assert (X : pl (natural P x') k = pl (sub_at P alpha sigma u xb) k - sigma * pl (pminus x' xb) k).
        { unfold natural, x', clamp_duals, sub_at, pminus; cbn [pz pl pv]. ring. }
        rewrite X.
        assert (K1 := entry_l P (sub_at P alpha sigma u xb) k Hk). fold ES in K1.
        assert (K2 := entry_l P (pminus x' xb) k Hk). fold (pdist P x' xb) in K2.
        eapply Rle_trans; [apply Rabs_triang|]. rewrite Rabs_Ropp, Rabs_mult, (Rabs_pos_eq sigma) by lra.
        assert (sigma * Rabs (pl (pminus x' xb) k) <= sigma * pdist P x' xb) by (apply Rmult_le_compat_l; lra). lra.
      - assert (K2 := entry_v P (pminus x' xb) k Hk). fold (pdist P x' xb) in K2.
        assert (Bmk := Bm k Hk). assert (Bqk := Bq k). fold ES in Bmk.
        assert (Y : margin P (pz x') k = gap P sigma u xb k - sigma * (pv (pminus x' xb) k - q k)).
        { unfold gap, q, pminus, x', clamp_duals; cbn [pz pl pv]. ring. }
        cbn [natural pv]. rewrite Y. replace (pv x' k) with (pv u k + q k) by (unfold q; ring).
        assert (Z : Rabs (sigma * (pv (pminus x' xb) k - q k)) <= sigma * pdist P x' xb + sigma * (mu * ES)).
        { rewrite Rabs_mult, (Rabs_pos_eq sigma), <- Rmult_plus_distr_l by lra. apply Rmult_le_compat_l; [lra|].
          eapply Rle_trans; [apply Rabs_triang|]. rewrite Rabs_Ropp. lra. }
        set (t := sigma * (pv (pminus x' xb) k - q k)) in *. set (g := gap P sigma u xb k) in *.
        assert (W : Rabs (Rmin (g - t) (pv u k + q k)) <= Rabs (m k) + Rabs t + Rabs (q k)).
        { unfold m. fold g. unfold Rmin, Rabs.
          repeat match goal with |- context [Rle_dec ?a ?b] => destruct (Rle_dec a b) end;
          repeat match goal with |- context [Rcase_abs ?a] => destruct (Rcase_abs a) end; lra. }
        lra.
    Qed.
  End Approx.
End Step.
