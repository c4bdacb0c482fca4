(* MpcData in rounded arithmetic, the methods. *)
From Verif Require Export MpcFloat.
Local Open Scope R_scope.

(* the OCP whose coefficients are the values of the data *)
Record describes_val {T} (O : Ops T) (val : T -> R) (d : mpc_data T) (o : OCP) : Prop := {
  dv_Q : forall k i j, (k < oN o + 1)%nat -> (i < onx o)%nat -> (j < onx o)%nat -> val (mget O (stg (m_Q (md_m d)) k) i j) = cQ o k i j;
  dv_R : forall k i j, (k < oN o + 1)%nat -> (i < onu o)%nat -> (j < onu o)%nat -> val (mget O (stg (m_R (md_m d)) k) i j) = cR o k i j;
  dv_S : forall k i j, (k < oN o + 1)%nat -> (i < onu o)%nat -> (j < onx o)%nat -> val (mget O (stg (m_S (md_m d)) k) i j) = cS o k i j;
  dv_q : forall k i, (k < oN o + 1)%nat -> (i < onx o)%nat -> val (mget O (stg (m_q (md_m d)) k) i 0) = cq o k i;
  dv_r : forall k i, (k < oN o + 1)%nat -> (i < onu o)%nat -> val (mget O (stg (m_r (md_m d)) k) i 0) = cr o k i;
  dv_A : forall k i j, (k < oN o)%nat -> (i < onx o)%nat -> (j < onx o)%nat -> val (mget O (stg (m_A (md_m d)) k) i j) = oA o k i j;
  dv_B : forall k i j, (k < oN o)%nat -> (i < onx o)%nat -> (j < onu o)%nat -> val (mget O (stg (m_B (md_m d)) k) i j) = oB o k i j;
  dv_c : forall k i, (k < oN o)%nat -> (i < onx o)%nat -> val (mget O (stg (m_c (md_m d)) k) i 0) = oc o k i;
  dv_E : forall k i j, (k < oN o + 1)%nat -> (i < onc o)%nat -> (j < onx o)%nat -> val (mget O (stg (m_E (md_m d)) k) i j) = oE o k i j;
  dv_L : forall k i j, (k < oN o + 1)%nat -> (i < onc o)%nat -> (j < onu o)%nat -> val (mget O (stg (m_L (md_m d)) k) i j) = oL o k i j;
  dv_d : forall k i, (k < oN o + 1)%nat -> (i < onc o)%nat -> val (mget O (stg (m_d (md_m d)) k) i 0) = od o k i;
  dv_x0 : forall i, (i < onx o)%nat -> val (vget O (m_x0 (md_m d)) i) = ox0 o i }.

Section MpcFloat2.
  Context {T : Type} {O : Ops T} {fin : T -> Prop} {val : T -> R} {u eta : R}.
  Hypothesis W : Rounded O fin val u eta.
  Notation vv := (fun x i => val (vget O x i)).
  Notation vg := (vget O).
  Notation ab x := (fun j : nat => Rabs (x j)).
  Notation finc := (@finc T O fin val u eta).

  Variable d : mpc_data T.
  Variable o : OCP.
  Notation N := (oN o). Notation nx := (onx o). Notation nu := (onu o). Notation nc := (onc o).
  Notation w := (nx + nu)%nat. Notation P := (ocp_qp o).
  Hypothesis Hd : mpc_ok d N nx nu nc.
  Hypothesis Hs : describes_val O val d o.
  Hypothesis Px : (0 < nx)%nat.
  Notation sz := (nx + nu + nc + 4)%nat.

  Ltac stage H :=
    let E := fresh "E" in let R := fresh "R" in let C := fresh "C" in
    match type of H with sok ?s ?n ?r ?c =>
      match goal with |- context [at_ s ?k] =>
        destruct (sok_stg s n r c k H) as (E & R & C); [lia|];
        rewrite E; cbn [rbind]
      end end.
  Ltac shapes := unfold shape;
    repeat match goal with H : mr ?M = _ |- context [mr ?M] => rewrite H end;
    repeat match goal with H : mc ?M = _ |- context [mc ?M] => rewrite H end;
    rewrite ?Nat.eqb_refl; cbn [andb ub_unless rbind].
  Ltac setup :=
    destruct Hd as [EN Ex Eu Ec Ez El Ev HQ HR HS Hq Hr HA HB Hc HE HL HD Hx0];
    destruct Hs as [SQ SR SS Sq Sr SA SB Sc SE SL SD Sx0];
    rewrite ?EN, ?Ex, ?Eu, ?Ec; unfold size_chk, size_chk1;
    repeat match goal with H : length ?a = _ |- context [length ?a =? _] => rewrite H end;
    rewrite ?Ez, ?El, ?Ev, ?Hx0, ?Nat.eqb_refl; cbn [andb throw_unless ub_unless rbind];
    rewrite ?(prescale_1 W).
  Lemma sz_pos : 0 <= 2 * INR sz. Proof. pose proof (pos_INR sz). lra. Qed.
  Lemma sz4 : 0 <= 2 * INR sz + 2 * INR sz. Proof. pose proof (pos_INR sz). lra. Qed.

  Ltac step :=
    match goal with
    | |- MpcFloat.finc _ (seg_upd _ ?y1 _ _ _) _ _ _ _ _ => eapply (finc_trans _ y1)
    | |- MpcFloat.finc _ (acc2 _ _ _ _ _ _ ?y1) _ _ _ _ _ => eapply (finc_trans _ y1)
    | |- MpcFloat.finc _ (acc1 _ _ _ _ _ ?y1) _ _ _ _ _ => eapply (finc_trans _ y1)
    | |- MpcFloat.finc _ (acc_vec _ _ _ _ _ ?y1) _ _ _ _ _ => eapply (finc_trans _ y1)
    end.

  Lemma mfH x y : length x = n_z P -> length y = n_z P -> exists r,
    mpc_gemvH O d x (o_one O) (o_one O) y = Ok r /\
    finc y r ((N + 1) * (sz + sz)) (INR (N + 1) * (2 * INR sz + 2 * INR sz))
      (times (n_z P) (cH P) (vv x)) (fun i => rsum (n_z P) (fun j => Rabs (cH P i j * vv x j)))
      (fun p => forall k i, (k < N + 1)%nat -> (i < nx)%nat -> p = (k * w + i)%nat ->
         (forall j, (j < nx)%nat -> fin (vg x (k * w + j)%nat)) /\ (forall j, (j < nu)%nat -> fin (vg x (k * w + nx + j)%nat))).
  Proof.
    intros Lx Ly. unfold mpc_gemvH. cbn [n_z ocp_qp] in Lx, Ly. setup.
    match goal with |- context [for_n _ ?f _] => destruct (floop W f (sz + sz) (2 * INR sz + 2 * INR sz)
      (incH o (vv x)) (incH (oabs o) (ab (vv x)))
      (fun k p => forall i, (i < nx)%nat -> p = (k * w + i)%nat ->
         (forall j, (j < nx)%nat -> fin (vg x (k * w + j)%nat)) /\ (forall j, (j < nu)%nat -> fin (vg x (k * w + nx + j)%nat)))
      ((N + 1) * w) (N + 1) 0 y Ly sz4) as (r & Er & Fr) end.
    - intros k z Hk Lz. stage HQ. stage HS. stage HR. shapes. eexists. split; [reflexivity|].
      eapply (finc_weaken W); [step|apply Nat.le_refl|apply Rle_refl| |].
      + apply (facc2 W _ 1 _ _ _ _ _ nx nu sz (fun i => times nx (cQ o k) (xs o (vv x) k) i) (fun i => ttimes nu (cS o k) (us o (vv x) k) i)
          (fun i => times nx (cQ (oabs o) k) (xs o (ab (vv x)) k) i) (fun i => ttimes nu (cS (oabs o) k) (us o (ab (vv x)) k) i)
          (fun _ => forall j, (j < nx)%nat -> fin (vg x (k * w + j)%nat)) (fun _ => forall j, (j < nu)%nat -> fin (vg x (k * w + nx + j)%nat)));
          [left; split; reflexivity|lia| |]; intros i Hi F.
        * apply (fmv W _ nx nx (cQ o k) x (k * w) i); auto. intros; apply SQ; lia.
        * apply (fmtv W _ nu nx (cS o k) x (k * w + nx) i); auto. intros; apply SS; lia.
      + apply (facc2 W _ 1 _ _ _ _ _ nx nu sz (fun i => times nx (cS o k) (xs o (vv x) k) i) (fun i => times nu (cR o k) (us o (vv x) k) i)
          (fun i => times nx (cS (oabs o) k) (xs o (ab (vv x)) k) i) (fun i => times nu (cR (oabs o) k) (us o (ab (vv x)) k) i)
          (fun _ => forall j, (j < nx)%nat -> fin (vg x (k * w + j)%nat)) (fun _ => forall j, (j < nu)%nat -> fin (vg x (k * w + nx + j)%nat)));
          [left; split; reflexivity|lia| |]; intros i Hi F.
        * apply (fmv W _ nu nx (cS o k) x (k * w) i); auto. intros; apply SS; lia.
        * apply (fmv W _ nu nu (cR o k) x (k * w + nx) i); auto. intros; apply SR; lia.
      + intros p Hp. unfold incH. cbn [oN onx onu onc oabs]; rewrite ?Nat.add_0_r. split; [f_equal; apply seg_ext; intros; ring|].
        apply Req_le. reflexivity.
      + intros p Hp [Q1 _] i Hi Ei. apply (Q1 i Hi Ei).
    - exists r. split; [exact Er|]. eapply (finc_weaken W); [exact Fr|lia|lra| |].
      + intros p Hp. rewrite Ly in Hp. cbn beta. rewrite sumH by exact Hp. split; [reflexivity|].
        rewrite absH. rewrite (sumH (oabs o)) by exact Hp. lra.
      + intros p Hp Q k i Hk Hi E. apply (Q k Hk i Hi E).
  Qed.

  Lemma mfA x y : length x = n_z P -> length y = n_v P -> exists r,
    mpc_gemvA O d x (o_mone O) (o_one O) y = Ok r /\
    finc y r ((N + 1) * sz) (INR (N + 1) * (2 * INR sz))
      (fun i => -1 * times (n_z P) (cA P) (vv x) i) (fun i => rsum (n_z P) (fun j => Rabs (cA P i j * vv x j))) (fun _ => True).
  Proof.
    intros Lx Ly. unfold mpc_gemvA. cbn [n_z n_v ocp_qp] in Lx, Ly. setup.
    match goal with |- context [for_n _ ?f _] => destruct (floop W f sz (2 * INR sz)
      (incA o (vv x) (-1)) (incA (oabs o) (ab (vv x)) 1) (fun _ _ => True) ((N + 1) * nc) (N + 1) 0 y Ly sz_pos) as (r & Er & Fr) end.
    - intros k z Hk Lz. stage HE. stage HL. shapes. eexists. split; [reflexivity|].
      eapply (finc_weaken W); [|apply Nat.le_refl|apply Rle_refl| |intros; exact I].
      + apply (facc2 W _ (-1) _ _ _ _ _ nx nu sz (fun i => times nx (oE o k) (xs o (vv x) k) i) (fun i => times nu (oL o k) (us o (vv x) k) i)
          (fun i => times nx (oE (oabs o) k) (xs o (ab (vv x)) k) i) (fun i => times nu (oL (oabs o) k) (us o (ab (vv x)) k) i)
          (fun _ => forall j, (j < nx)%nat -> fin (vg x (k * w + j)%nat)) (fun _ => forall j, (j < nu)%nat -> fin (vg x (k * w + nx + j)%nat)));
          [right; split; reflexivity|lia| |]; intros i Hi F.
        * apply (fmv W _ nc nx (oE o k) x (k * w) i); auto. intros; apply SE; lia.
        * apply (fmv W _ nc nu (oL o k) x (k * w + nx) i); auto. intros; apply SL; lia.
      + intros p Hp. unfold incA. cbn [oN onx onu onc oabs]; rewrite ?Nat.add_0_r. split; [reflexivity|].
        apply Req_le. apply seg_ext. intros i Hi. rewrite Rmult_1_l. reflexivity.
    - exists r. split; [exact Er|]. eapply (finc_weaken W); [exact Fr|lia|lra| |auto].
      intros p Hp. rewrite Ly in Hp. cbn beta. rewrite sumA by exact Hp. split; [reflexivity|].
      rewrite absA. rewrite (sumA (oabs o)) by exact Hp. lra.
  Qed.

  Lemma mfAT x y : length x = n_v P -> length y = n_z P -> exists r,
    mpc_gemvAT O d x (o_one O) (o_one O) y = Ok r /\
    finc y r ((N + 1) * (sz + sz)) (INR (N + 1) * (2 * INR sz + 2 * INR sz))
      (ttimes (n_v P) (cA P) (vv x)) (fun i => rsum (n_v P) (fun j => Rabs (cA P j i * vv x j)))
      (fun p => forall k i, (k < N + 1)%nat -> (i < nx)%nat -> p = (k * w + i)%nat -> forall j, (j < nc)%nat -> fin (vg x (k * nc + j)%nat)).
  Proof.
    intros Lx Ly. unfold mpc_gemvAT. cbn [n_z n_v ocp_qp] in Lx, Ly. setup.
    match goal with |- context [for_n _ ?f _] => destruct (floop W f (sz + sz) (2 * INR sz + 2 * INR sz)
      (incAT o (vv x)) (incAT (oabs o) (ab (vv x)))
      (fun k p => forall i, (i < nx)%nat -> p = (k * w + i)%nat -> forall j, (j < nc)%nat -> fin (vg x (k * nc + j)%nat))
      ((N + 1) * w) (N + 1) 0 y Ly sz4) as (r & Er & Fr) end.
    - intros k z Hk Lz. stage HE. stage HL. shapes. eexists. split; [reflexivity|].
      eapply (finc_weaken W); [step|apply Nat.le_refl|apply Rle_refl| |].
      + apply (facc1 W _ _ _ _ nc sz (fun i => ttimes nc (oE o k) (vs o (vv x) k) i) (fun i => ttimes nc (oE (oabs o) k) (vs o (ab (vv x)) k) i)
          (fun _ => forall j, (j < nc)%nat -> fin (vg x (k * nc + j)%nat))); [lia|]. intros i Hi F.
        apply (fmtv W _ nc nx (oE o k) x (k * nc) i); auto. intros; apply SE; lia.
      + apply (facc1 W _ _ _ _ nc sz (fun i => ttimes nc (oL o k) (vs o (vv x) k) i) (fun i => ttimes nc (oL (oabs o) k) (vs o (ab (vv x)) k) i)
          (fun _ => forall j, (j < nc)%nat -> fin (vg x (k * nc + j)%nat))); [lia|]. intros i Hi F.
        apply (fmtv W _ nc nu (oL o k) x (k * nc) i); auto. intros; apply SL; lia.
      + intros p Hp. unfold incAT. cbn [oN onx onu onc oabs]; rewrite ?Nat.add_0_r. split; [reflexivity|apply Req_le; reflexivity].
      + intros p Hp [Q1 _] i Hi Ei. apply (Q1 i Hi Ei).
    - exists r. split; [exact Er|]. eapply (finc_weaken W); [exact Fr|lia|lra| |].
      + intros p Hp. rewrite Ly in Hp. cbn beta. rewrite sumAT by exact Hp. split; [reflexivity|].
        rewrite absAT. rewrite (sumAT (oabs o)) by exact Hp. lra.
      + intros p Hp Q k i Hk Hi E. apply (Q k Hk i Hi E).
  Qed.

  (* - times over the negated sizes *)
  Lemma times_neg m (C : nat -> nat -> R) x i : times m (fun i j => - Rabs (C i j)) x i = - times m (fun i j => Rabs (C i j)) x i.
  Proof. unfold times. rewrite <- rsum_opp. apply rsum_ext. intros; ring. Qed.
  Lemma ttimes_neg m (C : nat -> nat -> R) x i : ttimes m (fun i j => - Rabs (C i j)) x i = - ttimes m (fun i j => Rabs (C i j)) x i.
  Proof. unfold ttimes. rewrite <- rsum_opp. apply rsum_ext. intros; ring. Qed.

  Lemma mfG x y : length x = n_z P -> length y = n_l P -> exists r,
    mpc_gemvG O d x (o_mone O) (o_one O) y = Ok r /\
    finc y r (sz + N * (sz + sz)) (2 * INR sz + INR N * (2 * INR sz + 2 * INR sz))
      (fun i => - times (n_z P) (cG P) (vv x) i) (fun i => rsum (n_z P) (fun j => Rabs (cG P i j * vv x j))) (fun _ => True).
  Proof.
    intros Lx Ly. unfold mpc_gemvG. cbn [n_z n_l ocp_qp] in Lx, Ly. setup.
    destruct (mone_fv W) as (Fm & Vm). destruct (rd_opp_fin _ _ _ _ _ W _ Fm) as (Fo & Vo). rewrite Vm in Vo.
    pose proof (facc_vec W (o_opp O (o_mone O)) 0 nx (vseg O x 0 nx) sz y ltac:(lia)) as F0.
    set (y0 := acc_vec O (o_opp O (o_mone O)) 0 nx (vseg O x 0 nx) y) in *.
    assert (L0 : length y0 = ((N + 1) * nx)%nat) by (destruct F0; congruence).
    assert (SG : forall s i, (i < nx)%nat -> vg (vseg O x s nx) i = vg x (s + i)%nat) by (intros s i Hi; unfold vseg; rewrite (vget_tab O) by exact Hi; reflexivity).
    match goal with |- context [for_from _ _ ?f _] => destruct (floop W f (sz + sz) (2 * INR sz + 2 * INR sz)
      (incG o (vv x)) (incG (oabs o) (ab (vv x))) (fun _ _ => True) ((N + 1) * nx) N 1 y0 L0 sz4) as (r & Er & Fr) end.
    - intros k z Hk Lz. stage HA. stage HB. shapes. eexists. split; [reflexivity|].
      rewrite (eqb_m1 W), (eqb_mm W).
      eapply (finc_weaken W); [step|apply Nat.le_refl|apply Rle_refl| |intros; exact I].
      + apply (facc2 W _ (-1) _ _ _ _ _ nx nu sz (fun i => times nx (oA o (k - 1)) (xs o (vv x) (k - 1)) i) (fun i => times nu (oB o (k - 1)) (us o (vv x) (k - 1)) i)
          (fun i => times nx (fun i j => Rabs (oA o (k - 1) i j)) (xs o (ab (vv x)) (k - 1)) i) (fun i => times nu (fun i j => Rabs (oB o (k - 1) i j)) (us o (ab (vv x)) (k - 1)) i)
          (fun _ => forall j, (j < nx)%nat -> fin (vg x ((k - 1) * w + j)%nat)) (fun _ => forall j, (j < nu)%nat -> fin (vg x ((k - 1) * w + nx + j)%nat)));
          [right; split; reflexivity|lia| |]; intros i Hi F.
        * apply (fmv W _ nx nx (oA o (k - 1)) x ((k - 1) * w) i); auto. intros; apply SA; lia.
        * apply (fmv W _ nx nu (oB o (k - 1)) x ((k - 1) * w + nx) i); auto. intros; apply SB; lia.
      + apply (fplus W _ _ _ (vseg O x (k * w) nx) sz); [lia|]. intros i Hi. reflexivity.
      + intros p Hp. unfold incG. cbn [oN onx onu onc oabs]; rewrite ?Nat.add_0_r. split; [f_equal; apply seg_ext; intros i Hi; cbn beta|apply Req_le; f_equal; apply seg_ext; intros i Hi; cbn beta].
        * rewrite SG by exact Hi. reflexivity.
        * cbn [onx onu oA oB oabs]. rewrite !times_neg. unfold xs, us. cbn [onx onu oabs]. ring.
        * rewrite SG by exact Hi. reflexivity.
    - exists r. split; [exact Er|]. eapply (finc_weaken W); [eapply finc_trans; [exact F0|exact Fr]|lia|lra| |auto].
      intros p Hp. rewrite Ly in Hp. cbn beta. split.
      + rewrite <- sumG by exact Hp. f_equal. apply seg_ext. intros i Hi. rewrite Vo, SG by exact Hi. unfold xs. cbn [Nat.mul Nat.add]. ring.
      + rewrite absG. rewrite <- (sumG (oabs o)) by exact Hp. apply Req_le. f_equal. apply seg_ext. intros i Hi. rewrite Vo, SG by exact Hi.
        unfold xs. cbn [Nat.mul Nat.add]. f_equal. ring.
  Qed.

  Lemma mfGT x y : length x = n_l P -> length y = n_z P -> exists r,
    mpc_gemvGT O d x (o_one O) (o_one O) y = Ok r /\
    finc y r (N * (sz + sz + sz) + sz) (INR N * (2 * INR sz + 2 * INR sz + 2 * INR sz) + 2 * INR sz)
      (ttimes (n_l P) (cG P) (vv x)) (fun i => rsum (n_l P) (fun j => Rabs (cG P j i * vv x j)))
      (fun p => forall k i, (k < N + 1)%nat -> (i < nx)%nat -> p = (k * w + i)%nat -> fin (vg x (k * nx + i)%nat)).
  Proof.
    intros Lx Ly. unfold mpc_gemvGT. cbn [n_z n_l ocp_qp] in Lx, Ly. setup.
    fold (o_mone O). destruct (mone_fv W) as (Fm & Vm).
    assert (SG : forall s i, (i < nx)%nat -> vg (vseg O x s nx) i = vg x (s + i)%nat) by (intros s i Hi; unfold vseg; rewrite (vget_tab O) by exact Hi; reflexivity).
    assert (S6 : 0 <= 2 * INR sz + 2 * INR sz + 2 * INR sz) by (pose proof (pos_INR sz); lra).
    match goal with |- context [for_n _ ?f _] => destruct (floop W f (sz + sz + sz) (2 * INR sz + 2 * INR sz + 2 * INR sz)
      (incGT o (vv x) 1) (incGT (oabs o) (ab (vv x)) (-1))
      (fun k p => forall i, (i < nx)%nat -> p = (k * w + i)%nat -> fin (vg x (k * nx + i)%nat))
      ((N + 1) * w) N 0 y Ly S6) as (r & Er & Fr) end.
    - intros k z Hk Lz. stage HA. stage HB. shapes. eexists. split; [reflexivity|].
      rewrite (eqb_11 W). cbn [orb].
      eapply (finc_weaken W); [step; [step|]|apply Nat.le_refl|apply Rle_refl| |].
      + apply (facc_vec W (o_mone O) (k * w) nx (vseg O x (k * nx) nx) sz z). lia.
      + apply (facc1 W _ _ _ _ nx sz (fun i => ttimes nx (oA o k) (ls o (vv x) (S k)) i) (fun i => ttimes nx (fun i j => Rabs (oA o k i j)) (ls o (ab (vv x)) (S k)) i)
          (fun _ => forall j, (j < nx)%nat -> fin (vg x ((k + 1) * nx + j)%nat))); [lia|]. intros i Hi F.
        unfold ls. replace (S k) with (k + 1)%nat by lia.
        apply (fmtv W _ nx nx (oA o k) x ((k + 1) * nx) i); auto. intros; apply SA; lia.
      + apply (facc1 W _ _ _ _ nx sz (fun i => ttimes nx (oB o k) (ls o (vv x) (S k)) i) (fun i => ttimes nx (fun i j => Rabs (oB o k i j)) (ls o (ab (vv x)) (S k)) i)
          (fun _ => forall j, (j < nx)%nat -> fin (vg x ((k + 1) * nx + j)%nat))); [lia|]. intros i Hi F.
        unfold ls. replace (S k) with (k + 1)%nat by lia.
        apply (fmtv W _ nx nu (oB o k) x ((k + 1) * nx) i); auto. intros; apply SB; lia.
      + intros p Hp. unfold incGT. cbn [oN onx onu onc oabs]; rewrite ?Nat.add_0_r. split; [f_equal; [f_equal|]|apply Req_le; f_equal; [f_equal|]]; apply seg_ext; intros i Hi; cbn beta.
        * rewrite Vm, SG by exact Hi. unfold ls. ring.
        * ring.
        * ring.
        * rewrite Vm, SG by exact Hi. unfold ls. cbn [onx oabs]. rewrite Rabs_mult, (Rabs_left (-1)) by lra. reflexivity.
        * cbn [onx oA oabs]. rewrite ttimes_neg. unfold ls. cbn [onx oabs]. ring.
        * cbn [onx oB oabs]. rewrite ttimes_neg. unfold ls. cbn [onx oabs]. ring.
      + intros p Hp [[Q1 _] _] i Hi Ei. rewrite <- SG by exact Hi. apply (Q1 i Hi Ei).
    - unfold for_n. rewrite Er. cbn [rbind]. eexists. split; [reflexivity|].
      assert (Lr : length r = ((N + 1) * w)%nat) by (destruct Fr; congruence).
      eapply (finc_weaken W); [eapply finc_trans; [exact Fr|apply (facc_vec W (o_mone O) (N * w) nx (vseg O x (N * nx) nx) sz r); lia]|lia|lra| |].
      + intros p Hp. rewrite Ly in Hp. cbn beta. split.
        * rewrite <- (Rmult_1_l (ttimes _ _ _ p)). rewrite <- sumGT by exact Hp. f_equal. apply seg_ext. intros i Hi. rewrite Vm, SG by exact Hi. unfold ls. ring.
        * rewrite absGT. rewrite <- (sumGT (oabs o)) by exact Hp. apply Req_le. f_equal. apply seg_ext. intros i Hi. rewrite Vm, SG by exact Hi.
          unfold ls. cbn [onx oN oabs]. rewrite Rabs_mult, (Rabs_left (-1)) by lra. reflexivity.
      + intros p Hp [Q1 Q2] k i Hk Hi E. destruct (Nat.eq_dec k N) as [ -> |NE].
        * rewrite <- SG by exact Hi. apply (Q2 i Hi E).
        * apply (Q1 k ltac:(lia) i Hi E).
  Qed.

  Lemma col_val M r (c : nat -> R) i : mr M = r -> (forall i, (i < r)%nat -> val (mget O M i 0) = c i) -> (i < r)%nat ->
    val (vg (mcol O M 0) i) = c i.
  Proof. intros H1 H2 Hi. unfold mcol. rewrite H1, (vget_tab O) by exact Hi. apply H2. exact Hi. Qed.

  Lemma mff y : length y = n_z P -> exists r, mpc_axpyf O d (o_one O) y = Ok r /\
    finc y r ((N + 1) * (sz + sz)) (INR (N + 1) * (2 * INR sz + 2 * INR sz)) (cf P) (ab (cf P)) (fun _ => True).
  Proof.
    intros Ly. unfold mpc_axpyf. cbn [n_z n_v ocp_qp] in Ly. setup. destruct (rd_one _ _ _ _ _ W) as (F1 & V1).
    match goal with |- context [for_n _ ?f _] => destruct (floop W f (sz + sz) (2 * INR sz + 2 * INR sz)
      (fun k p => seg (k * w + 0) nx (cq o k) p + seg (k * w + nx) nu (cr o k) p)
      (fun k p => seg (k * w + 0) nx (ab (cq o k)) p + seg (k * w + nx) nu (ab (cr o k)) p) (fun _ _ => True)
      ((N + 1) * w) (N + 1) 0 y Ly sz4) as (r & Er & Fr) end.
    - intros k z Hk Lz. stage Hq. stage Hr. shapes. eexists. split; [reflexivity|].
      eapply (finc_weaken W); [step|apply Nat.le_refl|apply Rle_refl| |intros; exact I].
      + apply (facc_vec W (o_one O) (k * w) nx (mcol O (stg (m_q (md_m d)) k) 0) sz z). lia.
      + apply (facc_vec W (o_one O) (k * w + nx) nu (mcol O (stg (m_r (md_m d)) k) 0) sz). lia.
      + intros p Hp. cbn [oN onx onu onc oabs]; rewrite ?Nat.add_0_r. split; [f_equal|apply Req_le; f_equal]; apply seg_ext; intros i Hi; rewrite V1, Rmult_1_l.
        * rewrite (col_val _ nx (cq o k)); auto. intros; apply Sq; lia.
        * rewrite (col_val _ nu (cr o k)); auto. intros; apply Sr; lia.
        * rewrite (col_val _ nx (cq o k)); auto. intros; apply Sq; lia.
        * rewrite (col_val _ nu (cr o k)); auto. intros; apply Sr; lia.
    - exists r. split; [exact Er|]. eapply (finc_weaken W); [exact Fr|lia|lra| |auto].
      rewrite Ly. apply (flat_xu o (fun p => _ = cf P p /\ _ <= Rabs (cf P p))); intros k i Hk Hi; rewrite !rsum_add.
      + rewrite f_x by exact Hi. rewrite (bs_out 0 (N + 1) w nx nu (cr o)), (bs_out 0 (N + 1) w nx nu (fun k i => Rabs (cr o k i))) by lia.
        replace (k * w + i)%nat with (k * w + 0 + i)%nat by lia.
        rewrite (bs_in 0 (N + 1) w 0 nx (cq o)), (bs_in 0 (N + 1) w 0 nx (fun k i => Rabs (cq o k i))) by lia. split; [ring|lra].
      + rewrite f_u by exact Hi. rewrite (bs_in 0 (N + 1) w nx nu (cr o)), (bs_in 0 (N + 1) w nx nu (fun k i => Rabs (cr o k i))) by lia.
        replace (k * w + nx + i)%nat with (k * w + (nx + i))%nat by lia.
        rewrite (bs_out 0 (N + 1) w 0 nx (cq o)), (bs_out 0 (N + 1) w 0 nx (fun k i => Rabs (cq o k i))) by lia. split; [ring|lra].
  Qed.
  Lemma mfb a y : length y = n_v P -> exists r, mpc_axpyb O d a y = Ok r /\
    finc y r ((N + 1) * sz) (INR (N + 1) * (2 * INR sz)) (fun i => val a * cb P i) (fun i => Rabs (val a * cb P i)) (fun _ => fin a).
  Proof.
    intros Ly. unfold mpc_axpyb. cbn [n_z n_v ocp_qp] in Ly. setup.
    match goal with |- context [for_n _ ?f _] => destruct (floop W f sz (2 * INR sz)
      (fun k p => seg (k * nc + 0) nc (fun i => val (o_opp O a) * od o k i) p) (fun k p => seg (k * nc + 0) nc (fun i => Rabs (val (o_opp O a) * od o k i)) p)
      (fun k => qseg (k * nc) nc (fun _ => fin (o_opp O a))) ((N + 1) * nc) (N + 1) 0 y Ly sz_pos) as (r & Er & Fr) end.
    - intros k z Hk Lz. stage HD. shapes. eexists. split; [reflexivity|].
      eapply (finc_weaken W); [|apply Nat.le_refl|apply Rle_refl| |].
      + apply (facc_vec W (o_opp O a) (k * nc) nc (mcol O (stg (m_d (md_m d)) k) 0) sz z). lia.
      + intros p Hp. cbn [oN onx onu onc oabs]; rewrite ?Nat.add_0_r. split; [|apply Req_le]; apply seg_ext; intros i Hi;
          (rewrite (col_val _ nc (od o k)); auto; intros; apply SD; lia).
      + intros p Hp Q i Hi E0. apply (Q i Hi E0).
    - exists r. split; [exact Er|].
      destruct Fr as (Lr & Cr & Fr). split; [exact Lr|]. split; [exact Cr|]. rewrite Ly in *. cbn [n_v ocp_qp].
      apply (flat (N + 1) nc (fun p => fin (vg r p) -> _ /\ fin a /\ forall k c m t, 0 <= c -> _ -> near _ _ (m + Rabs (val a * cb P p)) _ (t + val a * cb P p))).
      intros k i Hk Hi F. assert (Lt : (k * nc + i < (N + 1) * nc)%nat) by nia.
      destruct (Fr _ Lt F) as (F0 & Q & N1). split; [exact F0|].
      assert (Fa : fin (o_opp O a)) by (apply (Q k ltac:(lia) i Hi eq_refl)).
      pose proof (rd_opp _ _ _ _ _ W a Fa) as Fa'. split; [exact Fa'|].
      destruct (rd_opp_fin _ _ _ _ _ W a Fa') as (_ & Va).
      intros kk c m t Hc0 NN. specialize (N1 kk c m t Hc0 NN).
      rewrite b_row by exact Hi. replace (val a * - od o k i) with (val (o_opp O a) * od o k i) by (rewrite Va; ring).
      replace (k * nc + i)%nat with (k * nc + 0 + i)%nat in N1 by lia.
      rewrite (bs_in 0 (N + 1) nc 0 nc (fun k i => val (o_opp O a) * od o k i)), (bs_in 0 (N + 1) nc 0 nc (fun k i => Rabs (val (o_opp O a) * od o k i))) in N1 by lia.
      replace (k * nc + 0 + i)%nat with (k * nc + i)%nat in N1 by lia. exact N1.
  Qed.
  Lemma mfh y : length y = n_l P -> exists r, mpc_axpyh O d (o_one O) y = Ok r /\
    finc y r (sz + N * sz) (2 * INR sz + INR N * (2 * INR sz)) (ch P) (ab (ch P)) (fun _ => True).
  Proof.
    intros Ly. unfold mpc_axpyh. cbn [n_z n_l ocp_qp] in Ly. setup. fold (o_mone O). destruct (mone_fv W) as (Fm & Vm).
    pose proof (facc_vec W (o_mone O) 0 nx (m_x0 (md_m d)) sz y ltac:(lia)) as F0.
    set (y0 := acc_vec O (o_mone O) 0 nx (m_x0 (md_m d)) y) in *.
    assert (L0 : length y0 = ((N + 1) * nx)%nat) by (destruct F0; congruence).
    match goal with |- context [for_from _ _ ?f _] => destruct (floop W f sz (2 * INR sz)
      (fun k p => seg (k * nx + 0) nx (fun i => -1 * oc o (k - 1) i) p) (fun k p => seg (k * nx + 0) nx (fun i => Rabs (-1 * oc o (k - 1) i)) p)
      (fun _ _ => True) ((N + 1) * nx) N 1 y0 L0 sz_pos) as (r & Er & Fr) end.
    - intros k z Hk Lz. stage Hc. shapes. eexists. split; [reflexivity|].
      eapply (finc_weaken W); [|apply Nat.le_refl|apply Rle_refl| |intros; exact I].
      + apply (facc_vec W (o_mone O) (k * nx) nx (mcol O (stg (m_c (md_m d)) (k - 1)) 0) sz z). lia.
      + intros p Hp. cbn [oN onx onu onc oabs]; rewrite ?Nat.add_0_r. split; [|apply Req_le]; apply seg_ext; intros i Hi; rewrite Vm;
          (rewrite (col_val _ nx (oc o (k - 1))); auto; intros; apply Sc; lia).
    - exists r. split; [exact Er|]. eapply (finc_weaken W); [eapply finc_trans; [exact F0|exact Fr]|lia|lra| |auto].
      rewrite Ly. apply (flat_l o (fun p => _ = ch P p /\ _ <= Rabs (ch P p))).
      + intros i Hi. rewrite h_0 by exact Hi. cbn beta. rewrite !(seg_in 0 nx _ i Hi). rewrite Vm, Sx0 by exact Hi.
        pose proof (bs_out 1 N nx 0 nx (fun k i => -1 * oc o (k - 1) i) 0 i Hi ltac:(lia) ltac:(lia)) as B1.
        pose proof (bs_out 1 N nx 0 nx (fun k i => Rabs (-1 * oc o (k - 1) i)) 0 i Hi ltac:(lia) ltac:(lia)) as B2.
        cbn [Nat.mul Nat.add] in B1, B2 |- *. rewrite B1, B2. split; [ring|]. apply Req_le. rewrite Rplus_0_r. f_equal. ring.
      + intros k i Hk Hi. rewrite h_S by exact Hi. cbn beta. rewrite !(seg_out 0) by nia.
        replace (S k * nx + i)%nat with (S k * nx + 0 + i)%nat by lia.
        rewrite (bs_in 1 N nx 0 nx (fun k i => -1 * oc o (k - 1) i)), (bs_in 1 N nx 0 nx (fun k i => Rabs (-1 * oc o (k - 1) i))) by lia.
        replace (S k - 1)%nat with k by lia. split; [ring|]. apply Req_le. rewrite Rplus_0_l. f_equal. ring.
  Qed.

  Theorem mpc_approx : let K := ((N + 1) * (3 * sz))%nat in
    Approx O fin val u eta (mpcDI O) d P K (2 * INR K).
  Proof.
    intro K. pose proof (pos_INR K) as PK.
    assert (IK : INR K = INR (N + 1) * (3 * INR sz)) by (unfold K; rewrite mult_INR; f_equal; rewrite mult_INR; cbn [INR]; ring).
    assert (IN1 : INR (N + 1) = INR N + 1) by (rewrite plus_INR; reflexivity).
    pose proof (pos_INR N) as PN. pose proof (pos_INR sz) as PS.
    assert (NS : 0 <= INR N * INR sz) by (apply Rmult_le_pos; assumption).
    assert (WK : forall y r kk cc inc mg Q, finc y r kk cc inc mg Q -> (kk <= K)%nat -> cc <= 2 * INR K ->
      forall i, (i < length y)%nat -> fin (vg r i) -> fin (vg y i) /\ Q i /\
        forall k c m t, 0 <= c -> near (val:=val) (u:=u) (eta:=eta) k c m (vg y i) t -> near (val:=val) (u:=u) (eta:=eta) (k + K) (c + 2 * INR K) (m + mg i) (vg r i) (t + inc i)).
    { intros y r kk cc inc mg Q (L & C & H) Hk Hc i Hi F. destruct (H i Hi F) as (A1 & A2 & A3).
      split; [exact A1|]. split; [exact A2|]. intros k c m t Hc0 NN. eapply (near_weaken W); [apply (A3 k c m t Hc0 NN)|lia|lra|lra]. }
    constructor; cbn [mpcDI di_gemvH di_gemvA di_gemvG di_gemvAT di_gemvGT di_axpyf di_axpyh di_axpyb].
    - lra.
    - intros x y Lx Ly. destruct (mfH x y Lx Ly) as (r & E & F). exists r. split; [exact E|]. split; [destruct F; congruence|].
      pose proof (WK _ _ _ _ _ _ _ F ltac:(unfold K; nia) ltac:(rewrite IK, IN1; nra)) as H. rewrite Ly in H.
      split.
      + intro Fr. unfold fins. cbn [n_z ocp_qp].
        assert (ST : forall k, (k < N + 1)%nat -> (forall j, (j < nx)%nat -> fin (vg x (k * w + j)%nat)) /\ (forall j, (j < nu)%nat -> fin (vg x (k * w + nx + j)%nat))).
        { intros k Hk. assert (Lt : (k * w + 0 < n_z P)%nat) by (cbn [n_z ocp_qp]; nia).
          destruct (H _ Lt (Fr _ Lt)) as (_ & Q & _). apply (Q k 0%nat Hk Px eq_refl). }
        apply (flat_xu o (fun p => fin (vg x p))); intros k i Hk Hi; apply (ST k Hk); exact Hi.
      + intros i Hi Fi. destruct (H i Hi Fi) as (A & _ & B). split; [exact A|exact B].
    - intros x y Lx Ly. destruct (mfGT x y Lx Ly) as (r & E & F). exists r. split; [exact E|]. split; [destruct F; congruence|].
      pose proof (WK _ _ _ _ _ _ _ F ltac:(unfold K; nia) ltac:(rewrite IK, IN1; nra)) as H. rewrite Ly in H.
      split.
      + intro Fr. unfold fins. cbn [n_l ocp_qp]. apply flat. intros k i Hk Hi.
        assert (Lt : (k * w + i < n_z P)%nat) by (cbn [n_z ocp_qp]; nia).
        destruct (H _ Lt (Fr _ Lt)) as (_ & Q & _). apply (Q k i Hk Hi eq_refl).
      + intros i Hi Fi. destruct (H i Hi Fi) as (A & _ & B). split; [exact A|exact B].
    - intros x y Lx Ly. destruct (mfAT x y Lx Ly) as (r & E & F). exists r. split; [exact E|]. split; [destruct F; congruence|].
      pose proof (WK _ _ _ _ _ _ _ F ltac:(unfold K; nia) ltac:(rewrite IK, IN1; nra)) as H. rewrite Ly in H.
      split.
      + intro Fr. unfold fins. cbn [n_v ocp_qp]. apply flat. intros k i Hk Hi.
        assert (Lt : (k * w + 0 < n_z P)%nat) by (cbn [n_z ocp_qp]; nia).
        destruct (H _ Lt (Fr _ Lt)) as (_ & Q & _). apply (Q k 0%nat Hk Px eq_refl i Hi).
      + intros i Hi Fi. destruct (H i Hi Fi) as (A & _ & B). split; [exact A|exact B].
    - intros x y Lx Ly. destruct (mfG x y Lx Ly) as (r & E & F). exists r. split; [exact E|]. split; [destruct F; congruence|].
      pose proof (WK _ _ _ _ _ _ _ F ltac:(unfold K; nia) ltac:(rewrite IK, IN1; nra)) as H. rewrite Ly in H.
      intros i Hi Fi. destruct (H i Hi Fi) as (A & _ & B). split; [exact A|]. intros k c m t H0 Nt.
      exact (B k c m t H0 Nt).
    - intros x y Lx Ly. destruct (mfA x y Lx Ly) as (r & E & F). exists r. split; [exact E|]. split; [destruct F; congruence|].
      pose proof (WK _ _ _ _ _ _ _ F ltac:(unfold K; nia) ltac:(rewrite IK, IN1; nra)) as H. rewrite Ly in H.
      intros i Hi Fi. destruct (H i Hi Fi) as (A & _ & B). split; [exact A|]. intros k c m t H0 Nt.
      replace (t - times (n_z P) (cA P) (vv x) i) with (t + -1 * times (n_z P) (cA P) (vv x) i) by ring. exact (B k c m t H0 Nt).
    - intros y Ly. destruct (mff y Ly) as (r & E & F). exists r. split; [exact E|]. split; [destruct F; congruence|].
      pose proof (WK _ _ _ _ _ _ _ F ltac:(unfold K; nia) ltac:(rewrite IK, IN1; nra)) as H. rewrite Ly in H.
      intros i Hi Fi. destruct (H i Hi Fi) as (A & _ & B). split; [exact A|exact B].
    - intros y Ly. destruct (mfh y Ly) as (r & E & F). exists r. split; [exact E|]. split; [destruct F; congruence|].
      pose proof (WK _ _ _ _ _ _ _ F ltac:(unfold K; nia) ltac:(rewrite IK, IN1; nra)) as H. rewrite Ly in H.
      intros i Hi Fi. destruct (H i Hi Fi) as (A & _ & B). split; [exact A|exact B].
    - intros a y Ly. destruct (mfb a y Ly) as (r & E & F). exists r. split; [exact E|]. split; [destruct F; congruence|].
      pose proof (WK _ _ _ _ _ _ _ F ltac:(unfold K; nia) ltac:(rewrite IK, IN1; nra)) as H. rewrite Ly in H.
      intros i Hi Fi. destruct (H i Hi Fi) as (A & Q & B). split; [exact Q|]. split; [exact A|exact B].
  Qed.
End MpcFloat2.
