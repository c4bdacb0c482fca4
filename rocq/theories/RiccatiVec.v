(* The vector part of the Riccati recursion over the reals: the forward and backward passes
   solve the block tridiagonal system of the stages. *)
From Verif Require Export RiccatiR.
Local Open Scope R_scope.

Lemma vadd_R (u v : vec R) i : (i < length u)%nat -> rg (vadd Rops u v) i = rg u i + rg v i.
Proof. intro H. unfold vadd. rewrite (vget_tab Rops) by exact H. reflexivity. Qed.
Lemma vsub_R (u v : vec R) i : (i < length u)%nat -> rg (vsub Rops u v) i = rg u i - rg v i.
Proof. intro H. unfold vsub. rewrite (vget_tab Rops) by exact H. reflexivity. Qed.
Lemma vneg_R (u : vec R) i : (i < length u)%nat -> rg (vneg Rops u) i = - rg u i.
Proof.
  intro H. unfold vneg, vscale. rewrite (vget_tab Rops) by exact H. unfold o_mone.
  cbn [o_mul o_opp o_one Rops]. ring.
Qed.

Section Vec.
  Context (LA : LinAlg R) (LL : LALaws LA).
  Context (o : OCP) (sg : R) (Gm : vec R).
  Notation N := (oN o). Notation nx := (onx o). Notation nu := (onu o). Notation nc := (onc o).
  Notation lo M := (lowf (rm M)).
  Notation Qh := (Qh o sg Gm). Notation Rh := (Rh o sg Gm). Notation Sh := (Sh o Gm).
  Notation Pi st := (gram nx (lo (st_L st))).

  Lemma solve_llt_R L b : tri L nx -> length b = nx ->
    length (solve_llt Rops LA L b) = nx /\
    forall i, (i < nx)%nat -> times nx (gram nx (lo L)) (rg (solve_llt Rops LA L b)) i = rg b i.
  Proof.
    intros T Hb. unfold solve_llt.
    destruct (lsolve_vec_R LA LL L b nx T Hb) as [L1 E1].
    destruct (ltsolve_vec_R LA LL L (lsolve_vec Rops LA L b) nx T L1) as [L2 E2].
    split; [exact L2|]. intros i Hi. rewrite gram_times, <- E1 by exact Hi. apply times_ext. exact E2.
  Qed.

  Definition lens (s : vec R * vec R * vec R) : Prop :=
    length (fst (fst s)) = nx /\ length (snd (fst s)) = nu /\ length (snd s) = nx.

  (* the equations of stages k..N for given right hand sides *)
  Inductive solved (r1 r2 : vec R) : nat -> list (vec R * vec R * vec R) -> Prop :=
  | sv_last x u l : lens (x, u, l) ->
      (forall i, (i < nx)%nat -> times nx (Qh N) (rg x) i + ttimes nu (Sh N) (rg u) i - rg l i =
                                 rg (blk_x Rops r1 nx nu N) i) ->
      (forall i, (i < nu)%nat -> times nx (Sh N) (rg x) i + times nu (Rh N) (rg u) i =
                                 rg (blk_u Rops r1 nx nu N) i) ->
      solved r1 r2 N [(x, u, l)]
  | sv_cons k x u l x1 u1 l1 rest : (k < N)%nat -> lens (x, u, l) ->
      (forall i, (i < nx)%nat -> times nx (Qh k) (rg x) i + ttimes nu (Sh k) (rg u) i - rg l i +
                                 ttimes nx (oA o k) (rg l1) i = rg (blk_x Rops r1 nx nu k) i) ->
      (forall i, (i < nu)%nat -> times nx (Sh k) (rg x) i + times nu (Rh k) (rg u) i +
                                 ttimes nx (oB o k) (rg l1) i = rg (blk_u Rops r1 nx nu k) i) ->
      (forall i, (i < nx)%nat -> times nx (oA o k) (rg x) i + times nu (oB o k) (rg u) i - rg x1 i - sg * rg l1 i =
                                 rg (blk_l Rops r2 nx (S k)) i) ->
      solved r1 r2 (S k) ((x1, u1, l1) :: rest) ->
      solved r1 r2 k ((x, u, l) :: (x1, u1, l1) :: rest).

  Lemma mv_R M x n m i : mr M = n -> mc M = m -> length x = m -> (i < n)%nat ->
    rg (mv Rops M x) i = times m (rm M) (rg x) i.
  Proof. intros H1 H2 H3 Hi. rewrite mv_entry by congruence. rewrite H2. reflexivity. Qed.
  Lemma mtv_R M x n m i : mr M = n -> mc M = m -> length x = n -> (i < m)%nat ->
    rg (mtv Rops M x) i = ttimes n (rm M) (rg x) i.
  Proof. intros H1 H2 H3 Hi. rewrite mtv_entry by congruence. rewrite H1. reflexivity. Qed.

  Lemma fb_solved sts : forall k th r1 r2, chain LA o sg Gm k sts -> length th = nx ->
    let sol := ric_backward Rops LA sts (ric_forward Rops LA sts k th r1 r2 nx nu) k r1 nx nu in
    solved r1 r2 k sol /\
    match sts, sol with
    | st :: _, (x, u, l) :: _ => forall i, (i < nx)%nat -> - rg x i - times nx (Pi st) (rg l) i = rg th i
    | _, _ => False
    end.
  Proof.
    intros k th r1 r2 C. revert th. induction C as [st E|k st st1 rest Hk E LE C IH]; intros th Hth.
    - (* last stage *)
      destruct E as [TL TM TG SM1 SM2 eM eSM eSG].
      destruct (inv_llt_R LA LL (st_L st) nx TL) as (I1 & I2 & I3 & I4).
      cbn [ric_forward ric_backward]. cbv zeta.
      set (t := solve_llt Rops LA (st_L st) th).
      destruct (solve_llt_R (st_L st) th TL Hth) as [Lt Et]. fold t in Lt, Et.
      set (h := ric_h Rops LA st th (blk_x Rops r1 nx nu N)).
      assert (Lh : length h = nx) by (unfold h, ric_h; rewrite (ric_h_len Rops LA st th) || idtac; autorewrite with vlen; exact Lt).
      assert (Eh : forall i, (i < nx)%nat -> rg h i = rg t i - rg (blk_x Rops r1 nx nu N) i).
      { intros i Hi. unfold h, ric_h. rewrite vsub_R by (fold t; lia). reflexivity. }
      set (tx := lsolve_vec Rops LA (st_M st) h).
      destruct (lsolve_vec_R LA LL (st_M st) h nx TM Lh) as [Ltx Etx]. fold tx in Ltx, Etx.
      set (tu := ric_tu Rops LA st h (blk_u Rops r1 nx nu N)).
      set (bu := vadd Rops (mv Rops (st_SM st) tx) (blk_u Rops r1 nx nu N)).
      assert (Lbu : length bu = nu) by (unfold bu; autorewrite with vlen; exact SM1).
      destruct (lsolve_vec_R LA LL (st_SG st) bu nu TG Lbu) as [Ltu Etu].
      change (lsolve_vec Rops LA (st_SG st) bu) with tu in Ltu, Etu.
      destruct (ltsolve_vec_R LA LL (st_SG st) tu nu TG Ltu) as [Lu Eu].
      set (u := ltsolve_vec Rops LA (st_SG st) tu) in *.
      set (bx := vadd Rops tx (mtv Rops (st_SM st) u)).
      assert (Lbx : length bx = nx) by (unfold bx; autorewrite with vlen; exact Ltx).
      destruct (ltsolve_vec_R LA LL (st_M st) bx nx TM Lbx) as [Lx0 Ex0].
      set (x := vneg Rops (ltsolve_vec Rops LA (st_M st) bx)).
      assert (Lx : length x = nx) by (unfold x; rewrite vneg_len; exact Lx0).
      assert (Lb : length (vadd Rops x th) = nx) by (autorewrite with vlen; exact Lx).
      destruct (solve_llt_R (st_L st) (vadd Rops x th) TL Lb) as [Ll0 El0].
      set (l := vneg Rops (solve_llt Rops LA (st_L st) (vadd Rops x th))).
      assert (Ll : length l = nx) by (unfold l; rewrite vneg_len; exact Ll0).
      assert (El : forall i, (i < nx)%nat -> times nx (Pi st) (rg l) i = - (rg th i + rg x i)).
      { intros i Hi. rewrite (times_ext nx _ (rg l) (fun j => - rg (solve_llt Rops LA (st_L st) (vadd Rops x th)) j)).
        - rewrite times_opp, El0 by exact Hi. rewrite vadd_R by lia. ring.
        - intros j Hj. unfold l. apply vneg_R. lia. }
      assert (Vtx : forall i, (i < nx)%nat -> times nx (lo (st_M st)) (rg tx) i = rg t i - rg (blk_x Rops r1 nx nu N) i)
        by (intros i Hi; rewrite Etx by exact Hi; apply Eh; exact Hi).
      assert (Vtu : forall i, (i < nu)%nat -> times nu (lo (st_SG st)) (rg tu) i =
                 times nx (rm (st_SM st)) (rg tx) i + rg (blk_u Rops r1 nx nu N) i).
      { intros i Hi. rewrite Etu by exact Hi. unfold bu. rewrite vadd_R by (autorewrite with vlen; lia).
        rewrite (mv_R _ _ nu nx) by assumption. reflexivity. }
      assert (Vu : forall i, (i < nu)%nat -> ttimes nu (lo (st_SG st)) (rg u) i =
                 rg tu i + ttimes nx (fun _ _ => 0) (fun _ => 0) i).
      { intros i Hi. rewrite Eu by exact Hi. unfold ttimes. rewrite (rsum_zero nx); [ring|intros; ring]. }
      assert (Vx : forall i, (i < nx)%nat -> ttimes nx (lo (st_M st)) (fun j => - rg x j) i =
                 rg tx i + ttimes nu (rm (st_SM st)) (rg u) i + ttimes nx (fun _ _ => 0) (fun _ => 0) i).
      { intros i Hi. rewrite (ttimes_ext nx _ _ (rg (ltsolve_vec Rops LA (st_M st) bx))).
        - rewrite Ex0 by exact Hi. unfold bx. rewrite vadd_R by lia. rewrite (mtv_R _ _ nu nx) by assumption.
          unfold ttimes at 3. rewrite (rsum_zero nx); [ring|intros; ring].
        - intros j Hj. unfold x. rewrite vneg_R by lia. ring. }
      split.
      + apply sv_last; [split; [exact Lx|split; [exact Lu|exact Ll]]| |]; intros i Hi.
        * assert (K := stage_x nx nu (Qh N) (rm (inv_llt Rops LA (st_L st) nx)) (Pi st) (lo (st_M st)) (Sh N) (rm (st_SM st))
            eM eSM I3 I4 (fun i j _ _ => gram_sym nx _ i j) (fun _ _ => 0) (fun _ _ => 0)
            (fun i j _ _ => rsum_zero nx _ (fun k _ => Rmult_0_l _))
            (rg th) (rg t) (rg (blk_x Rops r1 nx nu N)) (rg tx) (fun _ => 0) (rg x) (rg u) (rg l)
            Et Vtx Vx El i Hi).
          rewrite <- K. unfold ttimes at 3. rewrite (rsum_zero nx (fun i0 => 0 * 0)); [ring|intros; ring].
        * assert (K := stage_u nx nu (lo (st_M st)) (Sh N) (rm (st_SM st)) (Rh N) (lo (st_SG st)) eSM eSG
            (fun _ _ => 0) (fun _ _ => 0) (fun _ _ => 0)).
          assert (Z : forall i j : nat, (i < nx)%nat -> (j < nu)%nat ->
            rsum nu (fun k => 0 * lo (st_SG st) j k) = rsum nx (fun k => 0 * rm (st_SM st) j k) - 0)
            by (intros; rewrite !rsum_zero by (intros; ring); ring).
          specialize (K Z (rg (blk_u Rops r1 nx nu N)) (rg tx) (rg tu) (fun _ => 0) (rg x) (rg u) Vtu Vu Vx i Hi).
          rewrite <- K. unfold ttimes. rewrite (rsum_zero nx (fun i0 => 0 * 0)); [ring|intros; ring].
      + intros i Hi. rewrite El by exact Hi. ring.
    - destruct E as [TL TM TG SM1 SM2 eM eSM eSG].
      destruct LE as [AM1 AM2 P1 P2 eAM eP ePi].
      destruct (inv_llt_R LA LL (st_L st) nx TL) as (I1 & I2 & I3 & I4).
      set (fw := ric_forward Rops LA (st :: st1 :: rest) k th r1 r2 nx nu).
      change fw with
        (let h := ric_h Rops LA st th (blk_x Rops r1 nx nu k) in
         let tx := lsolve_vec Rops LA (st_M st) h in
         let tu := ric_tu Rops LA st h (blk_u Rops r1 nx nu k) in
         let th1 := vadd Rops (vadd Rops (mv Rops (st_P st) tu) (mv Rops (st_AM st) tx)) (blk_l Rops r2 nx (S k)) in
         (th, h) :: ric_forward Rops LA (st1 :: rest) (S k) th1 r1 r2 nx nu).
      clear fw. cbv zeta.
      set (t := solve_llt Rops LA (st_L st) th).
      destruct (solve_llt_R (st_L st) th TL Hth) as [Lt Et]. fold t in Lt, Et.
      set (h := ric_h Rops LA st th (blk_x Rops r1 nx nu k)).
      assert (Lh : length h = nx) by (unfold h, ric_h; autorewrite with vlen; exact Lt).
      assert (Eh : forall i, (i < nx)%nat -> rg h i = rg t i - rg (blk_x Rops r1 nx nu k) i).
      { intros i Hi. unfold h, ric_h. rewrite vsub_R by (fold t; lia). reflexivity. }
      set (tx := lsolve_vec Rops LA (st_M st) h).
      destruct (lsolve_vec_R LA LL (st_M st) h nx TM Lh) as [Ltx Etx]. fold tx in Ltx, Etx.
      set (tu := ric_tu Rops LA st h (blk_u Rops r1 nx nu k)).
      set (bu := vadd Rops (mv Rops (st_SM st) tx) (blk_u Rops r1 nx nu k)).
      assert (Lbu : length bu = nu) by (unfold bu; autorewrite with vlen; exact SM1).
      destruct (lsolve_vec_R LA LL (st_SG st) bu nu TG Lbu) as [Ltu Etu].
      change (lsolve_vec Rops LA (st_SG st) bu) with tu in Ltu, Etu.
      set (th1 := vadd Rops (vadd Rops (mv Rops (st_P st) tu) (mv Rops (st_AM st) tx)) (blk_l Rops r2 nx (S k))).
      assert (Lth1 : length th1 = nx) by (unfold th1; autorewrite with vlen; exact P1).
      specialize (IH th1 Lth1). cbv zeta in IH.
      set (fw := ric_forward Rops LA (st1 :: rest) (S k) th1 r1 r2 nx nu) in *.
      set (bw := ric_backward Rops LA (st1 :: rest) fw (S k) r1 nx nu) in *.
      change (ric_backward Rops LA (st :: st1 :: rest) ((th, h) :: fw) k r1 nx nu) with
        (let tail := bw in
         let tu0 := tu in let tx0 := tx in
         let '(x, u) :=
          match tail with
          | [] =>
              let u := ltsolve_vec Rops LA (st_SG st) tu0 in
              let x := vneg Rops (ltsolve_vec Rops LA (st_M st)
                               (vadd Rops tx0 (mtv Rops (st_SM st) u))) in
              (x, u)
          | (_, _, l1) :: _ =>
              let u := ltsolve_vec Rops LA (st_SG st) (vadd Rops tu0 (mtv Rops (st_P st) l1)) in
              let x := vneg Rops (ltsolve_vec Rops LA (st_M st)
                               (vadd Rops (vadd Rops tx0 (mtv Rops (st_SM st) u)) (mtv Rops (st_AM st) l1))) in
              (x, u)
          end in
         let t := match tail with [] => vadd Rops x th | _ => vadd Rops th x end in
         let l := vneg Rops (solve_llt Rops LA (st_L st) t) in
         (x, u, l) :: tail).
      destruct IH as [IS IV]. destruct bw as [|[[x1 u1] l1] tl] eqn:Ebw; [contradiction|]. cbv beta zeta iota.
      assert (Ll1 : length l1 = nx) by (inversion IS; match goal with H : lens _ |- _ => apply H end).
      set (cu := vadd Rops tu (mtv Rops (st_P st) l1)).
      assert (Lcu : length cu = nu) by (unfold cu; autorewrite with vlen; exact Ltu).
      destruct (ltsolve_vec_R LA LL (st_SG st) cu nu TG Lcu) as [Lu Eu].
      set (u := ltsolve_vec Rops LA (st_SG st) cu) in *.
      set (bx := vadd Rops (vadd Rops tx (mtv Rops (st_SM st) u)) (mtv Rops (st_AM st) l1)).
      assert (Lbx : length bx = nx) by (unfold bx; autorewrite with vlen; exact Ltx).
      destruct (ltsolve_vec_R LA LL (st_M st) bx nx TM Lbx) as [Lx0 Ex0].
      set (x := vneg Rops (ltsolve_vec Rops LA (st_M st) bx)).
      assert (Lx : length x = nx) by (unfold x; rewrite vneg_len; exact Lx0).
      assert (Lb : length (vadd Rops th x) = nx) by (autorewrite with vlen; exact Hth).
      destruct (solve_llt_R (st_L st) (vadd Rops th x) TL Lb) as [Ll0 El0].
      set (l := vneg Rops (solve_llt Rops LA (st_L st) (vadd Rops th x))).
      assert (Ll : length l = nx) by (unfold l; rewrite vneg_len; exact Ll0).
      assert (El : forall i, (i < nx)%nat -> times nx (Pi st) (rg l) i = - (rg th i + rg x i)).
      { intros i Hi. rewrite (times_ext nx _ (rg l) (fun j => - rg (solve_llt Rops LA (st_L st) (vadd Rops th x)) j)).
        - rewrite times_opp, El0 by exact Hi. rewrite vadd_R by lia. ring.
        - intros j Hj. unfold l. apply vneg_R. lia. }
      assert (Vtx : forall i, (i < nx)%nat -> times nx (lo (st_M st)) (rg tx) i = rg t i - rg (blk_x Rops r1 nx nu k) i)
        by (intros i Hi; rewrite Etx by exact Hi; apply Eh; exact Hi).
      assert (Vtu : forall i, (i < nu)%nat -> times nu (lo (st_SG st)) (rg tu) i =
                 times nx (rm (st_SM st)) (rg tx) i + rg (blk_u Rops r1 nx nu k) i).
      { intros i Hi. rewrite Etu by exact Hi. unfold bu. rewrite vadd_R by (autorewrite with vlen; lia).
        rewrite (mv_R _ _ nu nx) by assumption. reflexivity. }
      assert (Vu : forall i, (i < nu)%nat -> ttimes nu (lo (st_SG st)) (rg u) i =
                 rg tu i + ttimes nx (rm (st_P st)) (rg l1) i).
      { intros i Hi. rewrite Eu by exact Hi. unfold cu. rewrite vadd_R by lia.
        rewrite (mtv_R _ _ nx nu) by assumption. reflexivity. }
      assert (Vx : forall i, (i < nx)%nat -> ttimes nx (lo (st_M st)) (fun j => - rg x j) i =
                 rg tx i + ttimes nu (rm (st_SM st)) (rg u) i + ttimes nx (rm (st_AM st)) (rg l1) i).
      { intros i Hi. rewrite (ttimes_ext nx _ _ (rg (ltsolve_vec Rops LA (st_M st) bx))).
        - rewrite Ex0 by exact Hi. unfold bx. rewrite vadd_R by (autorewrite with vlen; lia).
          rewrite vadd_R by lia. rewrite (mtv_R _ _ nu nx), (mtv_R _ _ nx nx) by assumption. reflexivity.
        - intros j Hj. unfold x. rewrite vneg_R by lia. ring. }
      split.
      + apply sv_cons; [exact Hk|split; [exact Lx|split; [exact Lu|exact Ll]]| | | |exact IS]; intros i Hi.
        * exact (stage_x nx nu (Qh k) (rm (inv_llt Rops LA (st_L st) nx)) (Pi st) (lo (st_M st)) (Sh k) (rm (st_SM st))
            eM eSM I3 I4 (fun i j _ _ => gram_sym nx _ i j) (rm (st_AM st)) (oA o k) eAM
            (rg th) (rg t) (rg (blk_x Rops r1 nx nu k)) (rg tx) (rg l1) (rg x) (rg u) (rg l)
            Et Vtx Vx El i Hi).
        * exact (stage_u nx nu (lo (st_M st)) (Sh k) (rm (st_SM st)) (Rh k) (lo (st_SG st)) eSM eSG
            (rm (st_AM st)) (rm (st_P st)) (oB o k) eP (rg (blk_u Rops r1 nx nu k)) (rg tx) (rg tu) (rg l1) (rg x) (rg u) Vtu Vu Vx i Hi).
        * apply (stage_next nx nu (lo (st_M st)) (rm (st_SM st)) (lo (st_SG st)) (rm (st_AM st)) (rm (st_P st))
                   (oA o k) (oB o k) eAM eP (rg tx) (rg tu) (rg l1) (rg x) (rg u) Vu Vx sg (Pi st1)
                   (rg (blk_l Rops r2 nx (S k))) (rg x1) ePi); [|exact Hi].
          intros j Hj. rewrite (IV j Hj). unfold th1.
          rewrite vadd_R by (autorewrite with vlen; lia). rewrite vadd_R by (autorewrite with vlen; lia).
          rewrite (mv_R _ _ nx nu), (mv_R _ _ nx nx) by assumption. reflexivity.
      + intros i Hi. rewrite El by exact Hi. ring.
  Qed.
End Vec.
