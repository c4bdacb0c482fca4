(* MpcData in rounded arithmetic without overflow, the methods. *)
From Verif Require Export MpcFwd.
Local Open Scope R_scope.

(* all entries of the data are finite numbers *)
Record finite_data {T} (O : Ops T) (fin : T -> Prop) (d : mpc_data T) (N nx nu nc : nat) : Prop := {
  fd_Q : forall k, (k < N + 1)%nat -> mfin (O:=O) (fin:=fin) (stg (m_Q (md_m d)) k) nx nx;
  fd_R : forall k, (k < N + 1)%nat -> mfin (O:=O) (fin:=fin) (stg (m_R (md_m d)) k) nu nu;
  fd_S : forall k, (k < N + 1)%nat -> mfin (O:=O) (fin:=fin) (stg (m_S (md_m d)) k) nu nx;
  fd_q : forall k, (k < N + 1)%nat -> mfin (O:=O) (fin:=fin) (stg (m_q (md_m d)) k) nx 1;
  fd_r : forall k, (k < N + 1)%nat -> mfin (O:=O) (fin:=fin) (stg (m_r (md_m d)) k) nu 1;
  fd_A : forall k, (k < N)%nat -> mfin (O:=O) (fin:=fin) (stg (m_A (md_m d)) k) nx nx;
  fd_B : forall k, (k < N)%nat -> mfin (O:=O) (fin:=fin) (stg (m_B (md_m d)) k) nx nu;
  fd_c : forall k, (k < N)%nat -> mfin (O:=O) (fin:=fin) (stg (m_c (md_m d)) k) nx 1;
  fd_E : forall k, (k < N + 1)%nat -> mfin (O:=O) (fin:=fin) (stg (m_E (md_m d)) k) nc nx;
  fd_L : forall k, (k < N + 1)%nat -> mfin (O:=O) (fin:=fin) (stg (m_L (md_m d)) k) nc nu;
  fd_d : forall k, (k < N + 1)%nat -> mfin (O:=O) (fin:=fin) (stg (m_d (md_m d)) k) nc 1;
  fd_x0 : fins O fin nx (m_x0 (md_m d)) }.

Section MpcFwd2.
  Context {T : Type} {O : Ops T} {fin : T -> Prop} {val : T -> R} {u eta big : R}.
  Hypothesis W : Rounded O fin val u eta.
  Hypothesis G : Ranged O fin val u eta big.
  Notation vv := (fun x i => val (vget O x i)).
  Notation vg := (vget O).
  Notation ab x := (fun j : nat => Rabs (x j)).
  Notation ffwd := (@ffwd T O fin val u eta big).

  Variable d : mpc_data T.
  Variable o : OCP.
  Notation N := (oN o). Notation nx := (onx o). Notation nu := (onu o). Notation nc := (onc o).
  Notation w := (nx + nu)%nat. Notation P := (ocp_qp o).
  Hypothesis Hd : mpc_ok d N nx nu nc.
  Hypothesis Hs : describes_val O val d o.
  Hypothesis Hf : finite_data O fin d N nx nu nc.
  Notation sz := (nx + nu + nc + 4)%nat.

  Ltac stage H :=
    let E := fresh "E" in let R := fresh "R" in let C := fresh "C" in
    match type of H with sok ?s ?n ?r ?c =>
      match goal with |- context [at_ s ?k] =>
        destruct (sok_stg s n r c k H) as (E & R & C); [lia|];
        rewrite E; cbn [rbind]
      end end.
  Ltac shapes := unfold shape;
    repeat match goal with H : mr ?M = _ |- context [mr ?M] => rewrite H end;
    repeat match goal with H : mc ?M = _ |- context [mc ?M] => rewrite H end;
    rewrite ?Nat.eqb_refl; cbn [andb ub_unless rbind].
  Ltac setup :=
    destruct Hd as [EN Ex Eu Ec Ez El Ev HQ HR HS Hq Hr HA HB Hc HE HL HD Hx0];
    destruct Hs as [SQ SR SS Sq Sr SA SB Sc SE SL SD Sx0];
    destruct Hf as [FQ FR FS Fq Fr_ FA FB Fc FE FL FD Fx0];
    rewrite ?EN, ?Ex, ?Eu, ?Ec; unfold size_chk, size_chk1;
    repeat match goal with H : length ?a = _ |- context [length ?a =? _] => rewrite H end;
    rewrite ?Ez, ?El, ?Ev, ?Hx0, ?Nat.eqb_refl; cbn [andb throw_unless ub_unless rbind];
    rewrite ?(prescale_1 W).
  Lemma wsz_pos : 0 <= 2 * INR sz. Proof. pose proof (pos_INR sz). lra. Qed.
  Lemma wsz4 : 0 <= 2 * INR sz + 2 * INR sz. Proof. pose proof (pos_INR sz). lra. Qed.
  Lemma seg_opp s n (g : nat -> R) p : seg s n (fun i => - g i) p = - seg s n g p.
  Proof. unfold seg. destruct (_ && _); ring. Qed.
  Lemma one_fv : fin (o_one O) /\ val (o_one O) = 1. Proof. exact (rd_one _ _ _ _ _ W). Qed.
  Lemma abs_m1 : Rabs (-1) = 1. Proof. rewrite Rabs_left by lra. ring. Qed.

  Ltac step :=
    match goal with
    | |- MpcFwd.ffwd _ (seg_upd _ ?y1 _ _ _) _ _ _ _ => eapply (ffwd_trans W _ y1)
    | |- MpcFwd.ffwd _ (acc2 _ _ _ _ _ _ ?y1) _ _ _ _ => eapply (ffwd_trans W _ y1)
    | |- MpcFwd.ffwd _ (acc1 _ _ _ _ _ ?y1) _ _ _ _ => eapply (ffwd_trans W _ y1)
    | |- MpcFwd.ffwd _ (acc_vec _ _ _ _ _ ?y1) _ _ _ _ => eapply (ffwd_trans W _ y1)
    end.
  (* a finite vector, stage by stage *)
  Ltac infin Hx := intros; apply Hx; cbn [n_z n_l n_v ocp_qp]; nia.

  Lemma wfH x y : length x = n_z P -> length y = n_z P -> fins O fin (n_z P) x -> exists r,
    mpc_gemvH O d x (o_one O) (o_one O) y = Ok r /\
    ffwd y r ((N + 1) * (sz + sz)) (INR (N + 1) * (2 * INR sz + 2 * INR sz))
      (times (n_z P) (cH P) (vv x)) (fun i => rsum (n_z P) (fun j => Rabs (cH P i j * vv x j))).
  Proof.
    intros Lx Ly Hx. unfold mpc_gemvH. cbn [n_z ocp_qp] in Lx, Ly. setup.
    match goal with |- context [for_n _ ?f _] => destruct (fwloop (big:=big) W f (sz + sz) (2 * INR sz + 2 * INR sz)
      (incH o (vv x)) (incH (oabs o) (ab (vv x))) ((N + 1) * w) (N + 1) 0 y Ly wsz4) as (r & Er & Fr) end.
    - intros k z Hk Lz. stage HQ. stage HS. stage HR. shapes. eexists. split; [reflexivity|].
      eapply (ffwd_weaken W); [step|apply Nat.le_refl|apply Rle_refl|].
      + apply (fwacc2 W G _ _ _ _ _ nx nu sz (fun i => times nx (cQ o k) (xs o (vv x) k) i) (fun i => ttimes nu (cS o k) (us o (vv x) k) i)
          (fun i => times nx (cQ (oabs o) k) (xs o (ab (vv x)) k) i) (fun i => ttimes nu (cS (oabs o) k) (us o (ab (vv x)) k) i));
          [lia| |]; intros i Hi.
        * apply (fwmv W G _ nx nx (cQ o k) x (k * w) i); auto; [apply FQ; lia|intros; apply SQ; lia|infin Hx].
        * apply (fwmtv W G _ nu nx (cS o k) x (k * w + nx) i); auto; [apply FS; lia|intros; apply SS; lia|infin Hx].
      + apply (fwacc2 W G _ _ _ _ _ nx nu sz (fun i => times nx (cS o k) (xs o (vv x) k) i) (fun i => times nu (cR o k) (us o (vv x) k) i)
          (fun i => times nx (cS (oabs o) k) (xs o (ab (vv x)) k) i) (fun i => times nu (cR (oabs o) k) (us o (ab (vv x)) k) i));
          [lia| |]; intros i Hi.
        * apply (fwmv W G _ nu nx (cS o k) x (k * w) i); auto; [apply FS; lia|intros; apply SS; lia|infin Hx].
        * apply (fwmv W G _ nu nu (cR o k) x (k * w + nx) i); auto; [apply FR; lia|intros; apply SR; lia|infin Hx].
      + intros p Hp. unfold incH. cbn [oN onx onu onc oabs]; rewrite ?Nat.add_0_r. split; [f_equal; apply seg_ext; intros; ring|].
        apply Req_le. reflexivity.
    - exists r. split; [exact Er|]. eapply (ffwd_weaken W); [exact Fr|lia|lra|].
      intros p Hp. rewrite Ly in Hp. cbn beta. rewrite sumH by exact Hp. split; [reflexivity|].
      rewrite absH. rewrite (sumH (oabs o)) by exact Hp. lra.
  Qed.

  Lemma wfA x y : length x = n_z P -> length y = n_v P -> fins O fin (n_z P) x -> exists r,
    mpc_gemvA O d x (o_one O) (o_one O) y = Ok r /\
    ffwd y r ((N + 1) * sz) (INR (N + 1) * (2 * INR sz))
      (times (n_z P) (cA P) (vv x)) (fun i => rsum (n_z P) (fun j => Rabs (cA P i j * vv x j))).
  Proof.
    intros Lx Ly Hx. unfold mpc_gemvA. cbn [n_z n_v ocp_qp] in Lx, Ly. setup.
    match goal with |- context [for_n _ ?f _] => destruct (fwloop (big:=big) W f sz (2 * INR sz)
      (incA o (vv x) 1) (incA (oabs o) (ab (vv x)) 1) ((N + 1) * nc) (N + 1) 0 y Ly wsz_pos) as (r & Er & Fr) end.
    - intros k z Hk Lz. stage HE. stage HL. shapes. eexists. split; [reflexivity|].
      eapply (ffwd_weaken W); [|apply Nat.le_refl|apply Rle_refl|].
      + apply (fwacc2 W G _ _ _ _ _ nx nu sz (fun i => times nx (oE o k) (xs o (vv x) k) i) (fun i => times nu (oL o k) (us o (vv x) k) i)
          (fun i => times nx (oE (oabs o) k) (xs o (ab (vv x)) k) i) (fun i => times nu (oL (oabs o) k) (us o (ab (vv x)) k) i));
          [lia| |]; intros i Hi.
        * apply (fwmv W G _ nc nx (oE o k) x (k * w) i); auto; [apply FE; lia|intros; apply SE; lia|infin Hx].
        * apply (fwmv W G _ nc nu (oL o k) x (k * w + nx) i); auto; [apply FL; lia|intros; apply SL; lia|infin Hx].
      + intros p Hp. unfold incA. cbn [oN onx onu onc oabs]; rewrite ?Nat.add_0_r. split; [|apply Req_le]; apply seg_ext; intros i Hi; rewrite Rmult_1_l; reflexivity.
    - exists r. split; [exact Er|]. eapply (ffwd_weaken W); [exact Fr|lia|lra|].
      intros p Hp. rewrite Ly in Hp. cbn beta. rewrite sumA by exact Hp. split; [ring|].
      rewrite absA. rewrite (sumA (oabs o)) by exact Hp. lra.
  Qed.

  Lemma wfAT x y : length x = n_v P -> length y = n_z P -> fins O fin (n_v P) x -> exists r,
    mpc_gemvAT O d x (o_one O) (o_one O) y = Ok r /\
    ffwd y r ((N + 1) * (sz + sz)) (INR (N + 1) * (2 * INR sz + 2 * INR sz))
      (ttimes (n_v P) (cA P) (vv x)) (fun i => rsum (n_v P) (fun j => Rabs (cA P j i * vv x j))).
  Proof.
    intros Lx Ly Hx. unfold mpc_gemvAT. cbn [n_z n_v ocp_qp] in Lx, Ly. setup.
    match goal with |- context [for_n _ ?f _] => destruct (fwloop (big:=big) W f (sz + sz) (2 * INR sz + 2 * INR sz)
      (incAT o (vv x)) (incAT (oabs o) (ab (vv x))) ((N + 1) * w) (N + 1) 0 y Ly wsz4) as (r & Er & Fr) end.
    - intros k z Hk Lz. stage HE. stage HL. shapes. eexists. split; [reflexivity|].
      eapply (ffwd_weaken W); [step|apply Nat.le_refl|apply Rle_refl|].
      + apply (fwacc1 W G _ _ _ _ nc sz (fun i => ttimes nc (oE o k) (vs o (vv x) k) i) (fun i => ttimes nc (oE (oabs o) k) (vs o (ab (vv x)) k) i)); [lia|]. intros i Hi.
        apply (fwmtv W G _ nc nx (oE o k) x (k * nc) i); auto; [apply FE; lia|intros; apply SE; lia|infin Hx].
      + apply (fwacc1 W G _ _ _ _ nc sz (fun i => ttimes nc (oL o k) (vs o (vv x) k) i) (fun i => ttimes nc (oL (oabs o) k) (vs o (ab (vv x)) k) i)); [lia|]. intros i Hi.
        apply (fwmtv W G _ nc nu (oL o k) x (k * nc) i); auto; [apply FL; lia|intros; apply SL; lia|infin Hx].
      + intros p Hp. unfold incAT. cbn [oN onx onu onc oabs]; rewrite ?Nat.add_0_r. split; [reflexivity|apply Req_le; reflexivity].
    - exists r. split; [exact Er|]. eapply (ffwd_weaken W); [exact Fr|lia|lra|].
      intros p Hp. rewrite Ly in Hp. cbn beta. rewrite sumAT by exact Hp. split; [reflexivity|].
      rewrite absAT. rewrite (sumAT (oabs o)) by exact Hp. lra.
  Qed.

  Lemma wfG x y : length x = n_z P -> length y = n_l P -> fins O fin (n_z P) x -> exists r,
    mpc_gemvG O d x (o_one O) (o_one O) y = Ok r /\
    ffwd y r (sz + N * (sz + sz)) (2 * INR sz + INR N * (2 * INR sz + 2 * INR sz))
      (times (n_z P) (cG P) (vv x)) (fun i => rsum (n_z P) (fun j => Rabs (cG P i j * vv x j))).
  Proof.
    intros Lx Ly Hx. unfold mpc_gemvG. cbn [n_z n_l ocp_qp] in Lx, Ly. setup.
    fold (o_mone O). destruct (mone_fv W) as (Fm & Vm).
    pose proof (fwacc_vec W G (o_mone O) (-1) 0 nx (vseg O x 0 nx) sz y ltac:(lia) Fm Vm abs_m1
      ltac:(intros i Hi; rewrite SEG by exact Hi; apply Hx; cbn [n_z ocp_qp]; nia)) as F0.
    set (y0 := acc_vec O (o_mone O) 0 nx (vseg O x 0 nx) y) in *.
    assert (L0 : length y0 = ((N + 1) * nx)%nat) by (destruct F0; congruence).
    match goal with |- context [for_from _ _ ?f _] => destruct (fwloop (big:=big) W f (sz + sz) (2 * INR sz + 2 * INR sz)
      (fun k p => - incG o (vv x) k p) (incG (oabs o) (ab (vv x))) ((N + 1) * nx) N 1 y0 L0 wsz4) as (r & Er & Fr) end.
    - intros k z Hk Lz. stage HA. stage HB. shapes. eexists. split; [reflexivity|].
      rewrite (eqb_11 W).
      eapply (ffwd_weaken W); [step|apply Nat.le_refl|apply Rle_refl|].
      + apply (fwacc2 W G _ _ _ _ _ nx nu sz (fun i => times nx (oA o (k - 1)) (xs o (vv x) (k - 1)) i) (fun i => times nu (oB o (k - 1)) (us o (vv x) (k - 1)) i)
          (fun i => times nx (fun i j => Rabs (oA o (k - 1) i j)) (xs o (ab (vv x)) (k - 1)) i) (fun i => times nu (fun i j => Rabs (oB o (k - 1) i j)) (us o (ab (vv x)) (k - 1)) i));
          [lia| |]; intros i Hi.
        * apply (fwmv W G _ nx nx (oA o (k - 1)) x ((k - 1) * w) i); auto; [apply FA; lia|intros; apply SA; lia|infin Hx].
        * apply (fwmv W G _ nx nu (oB o (k - 1)) x ((k - 1) * w + nx) i); auto; [apply FB; lia|intros; apply SB; lia|infin Hx].
      + apply (fwminus W G _ _ _ (vseg O x (k * w) nx) sz); [lia| |].
        * intros i Hi. rewrite SEG by exact Hi. apply Hx. cbn [n_z ocp_qp]. nia.
        * intros i Hi. reflexivity.
      + intros p Hp. unfold incG. cbn [oN onx onu onc oabs]; rewrite ?Nat.add_0_r. split.
        * rewrite Ropp_plus_distr. f_equal; rewrite <- seg_opp; apply seg_ext; intros i Hi; cbn beta; [ring|].
          rewrite SEG by exact Hi. reflexivity.
        * apply Req_le; f_equal; apply seg_ext; intros i Hi; cbn beta.
          -- cbn [onx onu oA oB oabs]. rewrite !times_neg. unfold xs, us. cbn [onx onu oabs]. ring.
          -- rewrite SEG by exact Hi. reflexivity.
    - exists r. split; [exact Er|]. eapply (ffwd_weaken W); [eapply (ffwd_trans W); [exact F0|exact Fr]|lia|lra|].
      intros p Hp. rewrite Ly in Hp. cbn beta. split.
      + rewrite <- (Ropp_involutive (times (n_z P) (cG P) (vv x) p)). rewrite <- sumG by exact Hp.
        rewrite rsum_opp, Ropp_plus_distr. f_equal. rewrite <- seg_opp. apply seg_ext. intros i Hi. rewrite SEG by exact Hi. unfold xs. cbn [Nat.mul Nat.add]. ring.
      + rewrite absG. rewrite <- (sumG (oabs o)) by exact Hp. apply Req_le. f_equal. apply seg_ext. intros i Hi. rewrite SEG by exact Hi.
        unfold xs. cbn [Nat.mul Nat.add]. reflexivity.
  Qed.

  Lemma wfGT x y : length x = n_l P -> length y = n_z P -> fins O fin (n_l P) x -> exists r,
    mpc_gemvGT O d x (o_one O) (o_one O) y = Ok r /\
    ffwd y r (N * (sz + sz + sz) + sz) (INR N * (2 * INR sz + 2 * INR sz + 2 * INR sz) + 2 * INR sz)
      (ttimes (n_l P) (cG P) (vv x)) (fun i => rsum (n_l P) (fun j => Rabs (cG P j i * vv x j))).
  Proof.
    intros Lx Ly Hx. unfold mpc_gemvGT. cbn [n_z n_l ocp_qp] in Lx, Ly. setup.
    fold (o_mone O). destruct (mone_fv W) as (Fm & Vm).
    assert (S6 : 0 <= 2 * INR sz + 2 * INR sz + 2 * INR sz) by (pose proof (pos_INR sz); lra).
    match goal with |- context [for_n _ ?f _] => destruct (fwloop (big:=big) W f (sz + sz + sz) (2 * INR sz + 2 * INR sz + 2 * INR sz)
      (incGT o (vv x) 1) (incGT (oabs o) (ab (vv x)) (-1)) ((N + 1) * w) N 0 y Ly S6) as (r & Er & Fr) end.
    - intros k z Hk Lz. stage HA. stage HB. shapes. eexists. split; [reflexivity|].
      rewrite (eqb_11 W). cbn [orb].
      eapply (ffwd_weaken W); [step; [step|]|apply Nat.le_refl|apply Rle_refl|].
      + apply (fwacc_vec W G (o_mone O) (-1) (k * w) nx (vseg O x (k * nx) nx) sz z); auto using abs_m1; [lia|].
        intros i Hi. rewrite SEG by exact Hi. apply Hx. cbn [n_l ocp_qp]. nia.
      + apply (fwacc1 W G _ _ _ _ nx sz (fun i => ttimes nx (oA o k) (ls o (vv x) (S k)) i) (fun i => ttimes nx (fun i j => Rabs (oA o k i j)) (ls o (ab (vv x)) (S k)) i)); [lia|]. intros i Hi.
        unfold ls. replace (S k) with (k + 1)%nat by lia.
        apply (fwmtv W G _ nx nx (oA o k) x ((k + 1) * nx) i); auto; [apply FA; lia|intros; apply SA; lia|infin Hx].
      + apply (fwacc1 W G _ _ _ _ nx sz (fun i => ttimes nx (oB o k) (ls o (vv x) (S k)) i) (fun i => ttimes nx (fun i j => Rabs (oB o k i j)) (ls o (ab (vv x)) (S k)) i)); [lia|]. intros i Hi.
        unfold ls. replace (S k) with (k + 1)%nat by lia.
        apply (fwmtv W G _ nx nu (oB o k) x ((k + 1) * nx) i); auto; [apply FB; lia|intros; apply SB; lia|infin Hx].
      + intros p Hp. unfold incGT. cbn [oN onx onu onc oabs]; rewrite ?Nat.add_0_r. split; [f_equal; [f_equal|]|apply Req_le; f_equal; [f_equal|]]; apply seg_ext; intros i Hi; cbn beta.
        * rewrite SEG by exact Hi. unfold ls. ring.
        * ring.
        * ring.
        * rewrite SEG by exact Hi. unfold ls. cbn [onx oabs]. ring.
        * cbn [onx oA oabs]. rewrite ttimes_neg. unfold ls. cbn [onx oabs]. ring.
        * cbn [onx oB oabs]. rewrite ttimes_neg. unfold ls. cbn [onx oabs]. ring.
    - unfold for_n. rewrite Er. cbn [rbind]. eexists. split; [reflexivity|].
      assert (Lr : length r = ((N + 1) * w)%nat) by (destruct Fr; congruence).
      eapply (ffwd_weaken W); [eapply (ffwd_trans W); [exact Fr|apply (fwacc_vec W G (o_mone O) (-1) (N * w) nx (vseg O x (N * nx) nx) sz r); auto using abs_m1; [lia|]]|lia|lra|].
      + intros i Hi. rewrite SEG by exact Hi. apply Hx. cbn [n_l ocp_qp]. nia.
      + intros p Hp. rewrite Ly in Hp. cbn beta. split.
        * rewrite <- (Rmult_1_l (ttimes _ _ _ p)). rewrite <- sumGT by exact Hp. f_equal. apply seg_ext. intros i Hi. rewrite SEG by exact Hi. unfold ls. ring.
        * rewrite absGT. rewrite <- (sumGT (oabs o)) by exact Hp. apply Req_le. f_equal. apply seg_ext. intros i Hi. rewrite SEG by exact Hi.
          unfold ls. cbn [onx oN oabs]. ring.
  Qed.

  Lemma col_vg M r i : mr M = r -> (i < r)%nat -> vg (mcol O M 0) i = mget O M i 0.
  Proof. intros H1 Hi. unfold mcol. rewrite H1, (vget_tab O) by exact Hi. reflexivity. Qed.

  Lemma wff y : length y = n_z P -> exists r, mpc_axpyf O d (o_one O) y = Ok r /\
    ffwd y r ((N + 1) * (sz + sz)) (INR (N + 1) * (2 * INR sz + 2 * INR sz)) (cf P) (ab (cf P)).
  Proof.
    intros Ly. unfold mpc_axpyf. cbn [n_z n_v ocp_qp] in Ly. setup. destruct one_fv as (F1 & V1).
    match goal with |- context [for_n _ ?f _] => destruct (fwloop (big:=big) W f (sz + sz) (2 * INR sz + 2 * INR sz)
      (fun k p => seg (k * w + 0) nx (cq o k) p + seg (k * w + nx) nu (cr o k) p)
      (fun k p => seg (k * w + 0) nx (ab (cq o k)) p + seg (k * w + nx) nu (ab (cr o k)) p)
      ((N + 1) * w) (N + 1) 0 y Ly wsz4) as (r & Er & Fr) end.
    - intros k z Hk Lz. stage Hq. stage Hr. shapes. eexists. split; [reflexivity|].
      eapply (ffwd_weaken W); [step|apply Nat.le_refl|apply Rle_refl|].
      + apply (fwacc_vec W G (o_one O) 1 (k * w) nx (mcol O (stg (m_q (md_m d)) k) 0) sz z); auto using Rabs_R1; [lia|].
        intros i Hi. rewrite (col_vg _ nx) by assumption. apply Fq; lia.
      + apply (fwacc_vec W G (o_one O) 1 (k * w + nx) nu (mcol O (stg (m_r (md_m d)) k) 0) sz); auto using Rabs_R1; [lia|].
        intros i Hi. rewrite (col_vg _ nu) by assumption. apply Fr_; lia.
      + intros p Hp. cbn [oN onx onu onc oabs]; rewrite ?Nat.add_0_r. split; [f_equal|apply Req_le; f_equal]; apply seg_ext; intros i Hi; rewrite ?Rmult_1_l.
        * rewrite (col_val _ nx (cq o k)); auto. intros; apply Sq; lia.
        * rewrite (col_val _ nu (cr o k)); auto. intros; apply Sr; lia.
        * rewrite (col_val _ nx (cq o k)); auto. intros; apply Sq; lia.
        * rewrite (col_val _ nu (cr o k)); auto. intros; apply Sr; lia.
    - exists r. split; [exact Er|]. eapply (ffwd_weaken W); [exact Fr|lia|lra|].
      rewrite Ly. apply (flat_xu o (fun p => _ = cf P p /\ _ <= Rabs (cf P p))); intros k i Hk Hi; rewrite !rsum_add.
      + rewrite f_x by exact Hi. rewrite (bs_out 0 (N + 1) w nx nu (cr o)), (bs_out 0 (N + 1) w nx nu (fun k i => Rabs (cr o k i))) by lia.
        replace (k * w + i)%nat with (k * w + 0 + i)%nat by lia.
        rewrite (bs_in 0 (N + 1) w 0 nx (cq o)), (bs_in 0 (N + 1) w 0 nx (fun k i => Rabs (cq o k i))) by lia. split; [ring|lra].
      + rewrite f_u by exact Hi. rewrite (bs_in 0 (N + 1) w nx nu (cr o)), (bs_in 0 (N + 1) w nx nu (fun k i => Rabs (cr o k i))) by lia.
        replace (k * w + nx + i)%nat with (k * w + (nx + i))%nat by lia.
        rewrite (bs_out 0 (N + 1) w 0 nx (cq o)), (bs_out 0 (N + 1) w 0 nx (fun k i => Rabs (cq o k i))) by lia. split; [ring|lra].
  Qed.
  Lemma wfb y : length y = n_v P -> exists r, mpc_axpyb O d (o_one O) y = Ok r /\
    ffwd y r ((N + 1) * sz) (INR (N + 1) * (2 * INR sz)) (cb P) (ab (cb P)).
  Proof.
    intros Ly. unfold mpc_axpyb. cbn [n_z n_v ocp_qp] in Ly. setup. fold (o_mone O). destruct (mone_fv W) as (Fm & Vm).
    match goal with |- context [for_n _ ?f _] => destruct (fwloop (big:=big) W f sz (2 * INR sz)
      (fun k p => seg (k * nc + 0) nc (fun i => -1 * od o k i) p) (fun k p => seg (k * nc + 0) nc (fun i => Rabs (od o k i)) p)
      ((N + 1) * nc) (N + 1) 0 y Ly wsz_pos) as (r & Er & Fr) end.
    - intros k z Hk Lz. stage HD. shapes. eexists. split; [reflexivity|].
      eapply (ffwd_weaken W); [|apply Nat.le_refl|apply Rle_refl|].
      + apply (fwacc_vec W G (o_mone O) (-1) (k * nc) nc (mcol O (stg (m_d (md_m d)) k) 0) sz z); auto using abs_m1; [lia|].
        intros i Hi. rewrite (col_vg _ nc) by assumption. apply FD; lia.
      + intros p Hp. cbn [oN onx onu onc oabs]; rewrite ?Nat.add_0_r. split; [|apply Req_le]; apply seg_ext; intros i Hi;
          (rewrite (col_val _ nc (od o k)); auto; intros; apply SD; lia).
    - exists r. split; [exact Er|]. eapply (ffwd_weaken W); [exact Fr|lia|lra|].
      rewrite Ly. apply (flat (N + 1) nc (fun p => _ = cb P p /\ _ <= Rabs (cb P p))). intros k i Hk Hi.
      rewrite b_row by exact Hi. replace (k * nc + i)%nat with (k * nc + 0 + i)%nat by lia.
      rewrite (bs_in 0 (N + 1) nc 0 nc (fun k i => -1 * od o k i)), (bs_in 0 (N + 1) nc 0 nc (fun k i => Rabs (od o k i))) by lia.
      split; [ring|]. rewrite Rabs_Ropp. lra.
  Qed.
  Lemma wfh y : length y = n_l P -> exists r, mpc_axpyh O d (o_one O) y = Ok r /\
    ffwd y r (sz + N * sz) (2 * INR sz + INR N * (2 * INR sz)) (ch P) (ab (ch P)).
  Proof.
    intros Ly. unfold mpc_axpyh. cbn [n_z n_l ocp_qp] in Ly. setup. fold (o_mone O). destruct (mone_fv W) as (Fm & Vm).
    pose proof (fwacc_vec W G (o_mone O) (-1) 0 nx (m_x0 (md_m d)) sz y ltac:(lia) Fm Vm abs_m1 ltac:(intros i Hi; apply Fx0; exact Hi)) as F0.
    set (y0 := acc_vec O (o_mone O) 0 nx (m_x0 (md_m d)) y) in *.
    assert (L0 : length y0 = ((N + 1) * nx)%nat) by (destruct F0; congruence).
    match goal with |- context [for_from _ _ ?f _] => destruct (fwloop (big:=big) W f sz (2 * INR sz)
      (fun k p => seg (k * nx + 0) nx (fun i => -1 * oc o (k - 1) i) p) (fun k p => seg (k * nx + 0) nx (fun i => Rabs (oc o (k - 1) i)) p)
      ((N + 1) * nx) N 1 y0 L0 wsz_pos) as (r & Er & Fr) end.
    - intros k z Hk Lz. stage Hc. shapes. eexists. split; [reflexivity|].
      eapply (ffwd_weaken W); [|apply Nat.le_refl|apply Rle_refl|].
      + apply (fwacc_vec W G (o_mone O) (-1) (k * nx) nx (mcol O (stg (m_c (md_m d)) (k - 1)) 0) sz z); auto using abs_m1; [lia|].
        intros i Hi. rewrite (col_vg _ nx) by assumption. apply Fc; lia.
      + intros p Hp. cbn [oN onx onu onc oabs]; rewrite ?Nat.add_0_r. split; [|apply Req_le]; apply seg_ext; intros i Hi;
          (rewrite (col_val _ nx (oc o (k - 1))); auto; intros; apply Sc; lia).
    - exists r. split; [exact Er|]. eapply (ffwd_weaken W); [eapply (ffwd_trans W); [exact F0|exact Fr]|lia|lra|].
      rewrite Ly. apply (flat_l o (fun p => _ = ch P p /\ _ <= Rabs (ch P p))).
      + intros i Hi. rewrite h_0 by exact Hi. cbn beta. rewrite !(seg_in 0 nx _ i Hi). rewrite Sx0 by exact Hi.
        pose proof (bs_out 1 N nx 0 nx (fun k i => -1 * oc o (k - 1) i) 0 i Hi ltac:(lia) ltac:(lia)) as B1.
        pose proof (bs_out 1 N nx 0 nx (fun k i => Rabs (oc o (k - 1) i)) 0 i Hi ltac:(lia) ltac:(lia)) as B2.
        cbn [Nat.mul Nat.add] in B1, B2 |- *. rewrite B1, B2. split; [ring|]. rewrite Rabs_Ropp. lra.
      + intros k i Hk Hi. rewrite h_S by exact Hi. cbn beta. rewrite !(seg_out 0) by nia.
        replace (S k * nx + i)%nat with (S k * nx + 0 + i)%nat by lia.
        rewrite (bs_in 1 N nx 0 nx (fun k i => -1 * oc o (k - 1) i)), (bs_in 1 N nx 0 nx (fun k i => Rabs (oc o (k - 1) i))) by lia.
        replace (S k - 1)%nat with k by lia. split; [ring|]. rewrite Rabs_Ropp. lra.
  Qed.

  (* b = 0 overwrites y *)
  Lemma prescale_0 y : prescale O (o_zero O) y = vconst (length y) (o_zero O).
  Proof.
    unfold prescale. destruct (rd_zero _ _ _ _ _ W) as (F0 & V0).
    assert (E : o_eqb O (o_zero O) (o_zero O) = true) by (apply (rd_eqb _ _ _ _ _ W); auto). rewrite E. reflexivity.
  Qed.
  Lemma gemvH_0 x y : mpc_gemvH O d x (o_one O) (o_zero O) y = mpc_gemvH O d x (o_one O) (o_one O) (vconst (length y) (o_zero O)).
  Proof. unfold mpc_gemvH, size_chk. rewrite prescale_0, (prescale_1 W), vconst_len. reflexivity. Qed.
  Lemma gemvA_0 x y : mpc_gemvA O d x (o_one O) (o_zero O) y = mpc_gemvA O d x (o_one O) (o_one O) (vconst (length y) (o_zero O)).
  Proof. unfold mpc_gemvA, size_chk. rewrite prescale_0, (prescale_1 W), vconst_len. reflexivity. Qed.
  Lemma gemvG_0 x y : mpc_gemvG O d x (o_one O) (o_zero O) y = mpc_gemvG O d x (o_one O) (o_one O) (vconst (length y) (o_zero O)).
  Proof. unfold mpc_gemvG, size_chk. rewrite prescale_0, (prescale_1 W), vconst_len. reflexivity. Qed.

  Theorem mpc_range : let K := ((N + 1) * (3 * sz))%nat in
    InRange (O:=O) (fin:=fin) (val:=val) (u:=u) (eta:=eta) (big:=big) (mpcDI O) d P K (2 * INR K) (fun _ => True).
  Proof.
    intro K. pose proof (pos_INR K) as PK.
    assert (IK : INR K = INR (N + 1) * (3 * INR sz)) by (unfold K; rewrite mult_INR; f_equal; rewrite mult_INR; cbn [INR]; ring).
    assert (IN1 : INR (N + 1) = INR N + 1) by (rewrite plus_INR; reflexivity).
    pose proof (pos_INR N) as PN. pose proof (pos_INR sz) as PS.
    assert (NS : 0 <= INR N * INR sz) by (apply Rmult_le_pos; assumption).
    assert (WK : forall y r kk cc inc mg, ffwd y r kk cc inc mg -> (kk <= K)%nat -> cc <= 2 * INR K ->
      forall i, (i < length y)%nat -> fin (vg y i) -> forall k c m t, 0 <= c -> near (val:=val) (u:=u) (eta:=eta) k c m (vg y i) t ->
        safe (u:=u) (eta:=eta) (big:=big) (k + K) (c + 2 * INR K) (m + mg i) ->
        fin (vg r i) /\ near (val:=val) (u:=u) (eta:=eta) (k + K) (c + 2 * INR K) (m + mg i) (vg r i) (t + inc i)).
    { intros y r kk cc inc mg F Hk Hc. apply (ffwd_weaken W _ _ _ _ _ _ K (2 * INR K) inc mg F Hk Hc). intros p _. split; [reflexivity|lra]. }
    assert (WZ : forall n r kk cc inc mg, ffwd (vconst n (o_zero O)) r kk cc inc mg -> (kk <= K)%nat -> cc <= 2 * INR K ->
      forall i, (i < n)%nat -> safe (u:=u) (eta:=eta) (big:=big) K (2 * INR K) (mg i) ->
        fin (vg r i) /\ near (val:=val) (u:=u) (eta:=eta) K (2 * INR K) (mg i) (vg r i) (inc i)).
    { intros n r kk cc inc mg F Hk Hc i Hi S. destruct (rd_zero _ _ _ _ _ W) as (F0 & V0).
      assert (E0 : vg (vconst n (o_zero O)) i = o_zero O) by (unfold vconst; rewrite (vget_tab O) by exact Hi; reflexivity).
      destruct (WK _ _ _ _ _ _ F Hk Hc i ltac:(rewrite vconst_len; exact Hi) ltac:(rewrite E0; exact F0) 0%nat 0 0 0 (Rle_refl 0)) as (A & B).
      - rewrite E0. split; [rewrite Rabs_R0; lra|]. rewrite V0, Rminus_0_r, Rabs_R0. lra.
      - rewrite !Rplus_0_l. exact S.
      - split; [exact A|]. rewrite !Rplus_0_l in B. exact B. }
    constructor; cbn [mpcDI di_gemvH di_gemvA di_gemvG di_gemvAT di_gemvGT di_axpyf di_axpyh di_axpyb].
    - intros x y Lx Ly Fx. destruct (wfAT x y Lx Ly Fx) as (r & E & F). exists r. split; [exact E|]. split; [destruct F; congruence|].
      rewrite <- Ly. apply (WK _ _ _ _ _ _ F ltac:(unfold K; nia) ltac:(rewrite IK, IN1; nra)).
    - intros x y Lx Ly Fx. destruct (wfGT x y Lx Ly Fx) as (r & E & F). exists r. split; [exact E|]. split; [destruct F; congruence|].
      rewrite <- Ly. apply (WK _ _ _ _ _ _ F ltac:(unfold K; nia) ltac:(rewrite IK, IN1; nra)).
    - intros x y Lx Ly Fx _. rewrite gemvH_0, Ly. destruct (wfH x (vconst (n_z P) (o_zero O)) Lx (vconst_len _ _) Fx) as (r & E & F).
      exists r. split; [exact E|]. split; [destruct F as (L & _); rewrite L; apply vconst_len|].
      apply (WZ _ _ _ _ _ _ F ltac:(unfold K; nia) ltac:(rewrite IK, IN1; nra)).
    - intros x y Lx Ly Fx _. rewrite gemvG_0, Ly. destruct (wfG x (vconst (n_l P) (o_zero O)) Lx (vconst_len _ _) Fx) as (r & E & F).
      exists r. split; [exact E|]. split; [destruct F as (L & _); rewrite L; apply vconst_len|].
      apply (WZ _ _ _ _ _ _ F ltac:(unfold K; nia) ltac:(rewrite IK, IN1; nra)).
    - intros x y Lx Ly Fx _. rewrite gemvA_0, Ly. destruct (wfA x (vconst (n_v P) (o_zero O)) Lx (vconst_len _ _) Fx) as (r & E & F).
      exists r. split; [exact E|]. split; [destruct F as (L & _); rewrite L; apply vconst_len|].
      apply (WZ _ _ _ _ _ _ F ltac:(unfold K; nia) ltac:(rewrite IK, IN1; nra)).
    - destruct (wff (vconst (n_z P) (o_zero O)) (vconst_len _ _)) as (r & E & F).
      exists r. split; [exact E|]. split; [destruct F as (L & _); rewrite L; apply vconst_len|].
      apply (WZ _ _ _ _ _ _ F ltac:(unfold K; nia) ltac:(rewrite IK, IN1; nra)).
    - destruct (wfh (vconst (n_l P) (o_zero O)) (vconst_len _ _)) as (r & E & F).
      exists r. split; [exact E|]. split; [destruct F as (L & _); rewrite L; apply vconst_len|].
      apply (WZ _ _ _ _ _ _ F ltac:(unfold K; nia) ltac:(rewrite IK, IN1; nra)).
    - destruct (wfb (vconst (n_v P) (o_zero O)) (vconst_len _ _)) as (r & E & F).
      exists r. split; [exact E|]. split; [destruct F as (L & _); rewrite L; apply vconst_len|].
      apply (WZ _ _ _ _ _ _ F ltac:(unfold K; nia) ltac:(rewrite IK, IN1; nra)).
  Qed.
End MpcFwd2.
