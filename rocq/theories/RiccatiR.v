(* The matrix part of the Riccati recursion over the reals: every stage produced by
   [ric_matrices] satisfies the factorisation equations of riccati_linear_solver.cc. *)
From Verif Require Export RicAlg MpcR RiccatiOk.
Local Open Scope R_scope.

Section Tri.
  Context (LA : LinAlg R) (LL : LALaws LA).
  Notation lo M := (lowf (rm M)).

  Definition tri (M : mat R) (n : nat) : Prop :=
    mr M = n /\ mc M = n /\ forall i, (i < n)%nat -> rm M i i <> 0.

  Lemma low_entry M n i j : mr M = n -> mc M = n -> (i < n)%nat -> (j < n)%nat ->
    rm (lowpart Rops M) i j = lo M i j.
  Proof.
    intros H1 H2 Hi Hj. unfold lowpart. rewrite H1, H2, (mget_mtab Rops) by assumption. reflexivity.
  Qed.
  Lemma lowpart_tri M n : tri M n -> mr (lowpart Rops M) = n /\ mc (lowpart Rops M) = n /\
    forall i, (i < n)%nat -> rm (lowpart Rops M) i i <> 0.
  Proof.
    intros (H1 & H2 & H3). split; [exact H1|]. split; [exact H2|]. intros i Hi.
    rewrite (low_entry M n) by assumption. unfold lowf. rewrite Nat.leb_refl. apply H3; exact Hi.
  Qed.

  Lemma la_lsolve_R M b n : tri M n -> length b = n ->
    length (la_lsolve LA (lowpart Rops M) b) = n /\
    forall i, (i < n)%nat -> times n (lo M) (rg (la_lsolve LA (lowpart Rops M) b)) i = rg b i.
  Proof.
    intros T Hb. destruct (lowpart_tri M n T) as (L1 & L2 & L3).
    destruct (ll_lsolve LA LL _ b n L1 L2 Hb L3) as [E1 E2]. split; [exact E1|]. intros i Hi.
    rewrite <- E2 by exact Hi. unfold times. destruct T as (T1 & T2 & T3).
    rewrite (rsum_trunc n (S i)); [|lia|].
    - apply rsum_ext. intros j Hj. rewrite (low_entry M n) by (assumption || lia). reflexivity.
    - intros k Hk. unfold lowf. destruct (Nat.leb_spec k i); [lia|ring].
  Qed.
  Lemma la_ltsolve_R M b n : tri M n -> length b = n ->
    length (la_ltsolve LA (lowpart Rops M) b) = n /\
    forall i, (i < n)%nat -> ttimes n (lo M) (rg (la_ltsolve LA (lowpart Rops M) b)) i = rg b i.
  Proof.
    intros T Hb. destruct (lowpart_tri M n T) as (L1 & L2 & L3).
    destruct (ll_ltsolve LA LL _ b n L1 L2 Hb L3) as [E1 E2]. split; [exact E1|]. intros i Hi.
    rewrite <- E2 by exact Hi. unfold ttimes. destruct T as (T1 & T2 & T3).
    apply rsum_ext. intros j Hj. rewrite (low_entry M n) by (assumption || lia). unfold lowf.
    destruct (Nat.leb_spec i j); ring.
  Qed.

  Lemma lsolve_vec_R M b n : tri M n -> length b = n ->
    length (lsolve_vec Rops LA M b) = n /\
    forall i, (i < n)%nat -> times n (lo M) (rg (lsolve_vec Rops LA M b)) i = rg b i.
  Proof.
    intros T Hb. destruct (la_lsolve_R M b n T Hb) as [E1 E2].
    unfold lsolve_vec. cbv zeta. split; [rewrite tab_length; exact Hb|]. intros i Hi.
    rewrite <- E2 by exact Hi. apply times_ext. intros j Hj. rewrite (vget_tab Rops) by lia. reflexivity.
  Qed.
  Lemma ltsolve_vec_R M b n : tri M n -> length b = n ->
    length (ltsolve_vec Rops LA M b) = n /\
    forall i, (i < n)%nat -> ttimes n (lo M) (rg (ltsolve_vec Rops LA M b)) i = rg b i.
  Proof.
    intros T Hb. destruct (la_ltsolve_R M b n T Hb) as [E1 E2].
    unfold ltsolve_vec. cbv zeta. split; [rewrite tab_length; exact Hb|]. intros i Hi.
    rewrite <- E2 by exact Hi. apply ttimes_ext. intros j Hj. rewrite (vget_tab Rops) by lia. reflexivity.
  Qed.
  (* M'x = b has a solution *)
  Lemma tri_solvable M n : tri M n -> forall b, exists x, forall i, (i < n)%nat -> ttimes n (lo M) x i = b i.
  Proof.
    intros T b. destruct (ltsolve_vec_R M (tab n b) n T (tab_length _ _)) as [_ E].
    eexists. intros i Hi. rewrite E by exact Hi. apply (vget_tab Rops); exact Hi.
  Qed.

  Lemma rsolve_R M B n m : tri M n -> mr B = m -> mc B = n ->
    mr (rsolve_mat Rops LA M B) = m /\ mc (rsolve_mat Rops LA M B) = n /\
    forall i j, (i < m)%nat -> (j < n)%nat ->
      rsum n (fun k => rm (rsolve_mat Rops LA M B) i k * lo M j k) = rm B i j.
  Proof.
    intros T H1 H2. split; [exact H1|]. split; [exact H2|]. intros i j Hi Hj.
    assert (Lr : length (mrow Rops B i) = n) by (unfold mrow; rewrite tab_length; exact H2).
    destruct (la_lsolve_R M (mrow Rops B i) n T Lr) as [_ E].
    transitivity (rg (mrow Rops B i) j).
    - rewrite <- E by exact Hj. unfold times. apply rsum_ext. intros k Hk.
      unfold rsolve_mat. cbv zeta. rewrite H1, H2, (mget_mtab Rops) by assumption.
      rewrite tab_nth by exact Hi. ring.
    - unfold mrow. rewrite (vget_tab Rops) by congruence. reflexivity.
  Qed.
  Lemma ltsolve_mat_R M B n m : tri M n -> mr B = n -> mc B = m ->
    mr (ltsolve_mat Rops LA M B) = n /\ mc (ltsolve_mat Rops LA M B) = m /\
    forall i j, (i < n)%nat -> (j < m)%nat ->
      ttimes n (lo M) (fun k => rm (ltsolve_mat Rops LA M B) k j) i = rm B i j.
  Proof.
    intros T H1 H2. split; [exact H1|]. split; [exact H2|]. intros i j Hi Hj.
    assert (Lc : length (mcol Rops B j) = n) by (unfold mcol; rewrite tab_length; exact H1).
    destruct (la_ltsolve_R M (mcol Rops B j) n T Lc) as [_ E].
    transitivity (rg (mcol Rops B j) i).
    - rewrite <- E by exact Hi. apply ttimes_ext. intros k Hk.
      unfold ltsolve_mat. cbv zeta. rewrite H1, H2, (mget_mtab Rops) by assumption.
      rewrite tab_nth by exact Hj. reflexivity.
    - unfold mcol. rewrite (vget_tab Rops) by congruence. reflexivity.
  Qed.
  Lemma lsolve_mat_R M B n m : tri M n -> mr B = n -> mc B = m ->
    mr (lsolve_mat Rops LA M B) = n /\ mc (lsolve_mat Rops LA M B) = m /\
    forall i j, (i < n)%nat -> (j < m)%nat ->
      times n (lo M) (fun k => rm (lsolve_mat Rops LA M B) k j) i = rm B i j.
  Proof.
    intros T H1 H2. split; [exact H1|]. split; [exact H2|]. intros i j Hi Hj.
    assert (Lc : length (mcol Rops B j) = n) by (unfold mcol; rewrite tab_length; exact H1).
    destruct (la_lsolve_R M (mcol Rops B j) n T Lc) as [_ E].
    transitivity (rg (mcol Rops B j) i).
    - rewrite <- E by exact Hi. apply times_ext. intros k Hk.
      unfold lsolve_mat. cbv zeta. rewrite H1, H2, (mget_mtab Rops) by assumption.
      rewrite tab_nth by exact Hj. reflexivity.
    - unfold mcol. rewrite (vget_tab Rops) by congruence. reflexivity.
  Qed.

  (* inv(LL'): a two-sided inverse, symmetric *)
  Lemma inv_llt_R L n : tri L n -> let X := rm (inv_llt Rops LA L n) in
    mr (inv_llt Rops LA L n) = n /\ mc (inv_llt Rops LA L n) = n /\
    (forall i j, (i < n)%nat -> (j < n)%nat ->
       rsum n (fun k => gram n (lo L) i k * X k j) = if Nat.eqb i j then 1 else 0) /\
    (forall i j, (i < n)%nat -> (j < n)%nat -> X i j = X j i).
  Proof.
    intros T. unfold inv_llt. cbv zeta. change (o_one Rops) with 1.
    destruct (lsolve_mat_R L (meye Rops n 1) n n T eq_refl eq_refl) as (S1 & S2 & S3).
    set (Y := lsolve_mat Rops LA L (meye Rops n 1)) in *.
    destruct (ltsolve_mat_R L Y n n T S1 S2) as (X1 & X2 & X3).
    set (Xm := ltsolve_mat Rops LA L Y) in *.
    assert (PX : forall i j, (i < n)%nat -> (j < n)%nat ->
      times n (gram n (lo L)) (fun k => rm Xm k j) i = if Nat.eqb i j then 1 else 0).
    { intros i j Hi Hj. rewrite gram_times.
      rewrite (times_ext n _ _ (fun k => rm Y k j)) by (intros k Hk; apply X3; assumption).
      rewrite S3 by assumption. unfold meye. rewrite (mget_mtab Rops) by assumption.
      cbn [o_mul o_one o_zero Rops]. destruct (Nat.eqb i j); ring. }
    split; [exact X1|]. split; [exact X2|]. split; [exact PX|].
    intros i j Hi Hj.
    (* x_i' Pi x_j both ways *)
    assert (Q : forall a b, (a < n)%nat -> (b < n)%nat ->
      rsum n (fun k => rm Xm k a * times n (gram n (lo L)) (fun m => rm Xm m b) k) = rm Xm b a).
    { intros a b Ha Hb. rewrite (rsum_ext n _ (fun k => if Nat.eqb k b then rm Xm k a else 0)).
      - apply (rsum_if_eq n b (fun k => rm Xm k a) Hb).
      - intros k Hk. rewrite PX by assumption. destruct (Nat.eqb k b); ring. }
    rewrite <- (Q j i Hj Hi), <- (Q i j Hi Hj).
    rewrite dot_times. apply rsum_ext. intros k Hk.
    replace (ttimes n (gram n (lo L)) (fun k0 => rm Xm k0 j) k)
      with (times n (gram n (lo L)) (fun k0 => rm Xm k0 j) k); [ring|].
    unfold times, ttimes. apply rsum_ext. intros m _. rewrite (gram_sym n _ k m). reflexivity.
  Qed.

  (* Eigen::LLT in place *)
  Lemma llt_inplace_R K M n : mr K = n -> mc K = n -> llt_inplace Rops LA K = Some M ->
    tri M n /\ forall i j, (i < n)%nat -> (j <= i)%nat ->
      gram n (lo M) i j = rm K i j /\ gram n (lo M) j i = rm K i j.
  Proof.
    intros H1 H2 E. unfold llt_inplace in E.
    destruct (la_llt LA (symlow Rops K)) as [F|] eqn:EF; [|discriminate]. injection E as <-.
    destruct (ll_llt_sound LA LL (symlow Rops K) F n) as (F1 & F2 & F3 & F4);
      [exact H1|exact H2 || exact H1|exact EF|].
    assert (Me : forall i j, (i < n)%nat -> (j < n)%nat -> (j <= i)%nat -> rm (mlower_assign Rops K F) i j = rm F i j).
    { intros i j Hi Hj Hij. unfold mlower_assign. rewrite (mget_mtab Rops) by congruence.
      destruct (Nat.leb_spec j i); [reflexivity|lia]. }
    split.
    { split; [exact H1|]. split; [exact H2|]. intros i Hi. rewrite Me by lia. specialize (F3 i Hi). lra. }
    assert (G : forall i j, (i < n)%nat -> (j <= i)%nat -> gram n (lo (mlower_assign Rops K F)) i j = rm K i j).
    { intros i j Hi Hj. unfold gram. rewrite (rsum_trunc n (S j)); [|lia|].
      - rewrite (rsum_ext (S j) _ (fun k => rm F i k * rm F j k)).
        + rewrite F4 by assumption. unfold symlow. rewrite H1. rewrite (mget_mtab Rops) by lia.
          destruct (Nat.leb_spec j i); [reflexivity|lia].
        + intros k Hk. unfold lowf. destruct (Nat.leb_spec k i); [|lia]. destruct (Nat.leb_spec k j); [|lia].
          rewrite !Me by lia. reflexivity.
      - intros k Hk. unfold lowf at 2. destruct (Nat.leb_spec k j); [lia|ring]. }
    intros i j Hi Hj. split; [apply G; assumption|]. rewrite gram_sym. apply G; assumption.
  Qed.
  Lemma llt_inplace_some K n : mr K = n -> mc K = n ->
    posdef n (fun i j => if (j <=? i)%nat then rm K i j else rm K j i) -> llt_inplace Rops LA K <> None.
  Proof.
    intros H1 H2 P E. unfold llt_inplace in E.
    destruct (la_llt LA (symlow Rops K)) as [F|] eqn:EF; [discriminate|].
    assert (En : forall i j, (i < n)%nat -> (j < n)%nat ->
      rm (symlow Rops K) i j = if (j <=? i)%nat then rm K i j else rm K j i).
    { intros i j Hi Hj. unfold symlow. rewrite H1, (mget_mtab Rops) by assumption. reflexivity. }
    refine (ll_llt_complete LA LL (symlow Rops K) n H1 _ _ _ EF).
    - exact H2 || exact H1.
    - intros i j Hi Hj. rewrite !En by assumption.
      destruct (Nat.leb_spec j i); destruct (Nat.leb_spec i j); try lia; try reflexivity.
      replace i with j by lia. reflexivity.
    - apply (posdef_ext n _ _ (fun i j Hi Hj => eq_sym (En i j Hi Hj)) P).
  Qed.
End Tri.

Section Chain.
  Context (LA : LinAlg R) (LL : LALaws LA).
  Context (d : mpc_data R) (o : OCP).
  Notation N := (oN o). Notation nx := (onx o). Notation nu := (onu o). Notation nc := (onc o).
  Hypothesis Hd : mpc_ok d N nx nu nc.
  Hypothesis Hs : describes d o.
  Context (sg : R) (Gm : vec R).
  Hypothesis Hsg : 0 < sg.
  Hypothesis symQ : forall k i j, (k < N + 1)%nat -> (i < nx)%nat -> (j < nx)%nat -> cQ o k i j = cQ o k j i.
  Hypothesis symR : forall k i j, (k < N + 1)%nat -> (i < nu)%nat -> (j < nu)%nat -> cR o k i j = cR o k j i.
  Notation lo M := (lowf (rm M)).

  (* the barrier-augmented Hessian blocks *)
  Definition Qh (k i j : nat) : R := cQ o k i j + (if Nat.eqb i j then sg else 0) +
    rsum nc (fun c => oE o k c i * (rg Gm (k * nc + c) * oE o k c j)).
  Definition Rh (k i j : nat) : R := cR o k i j + (if Nat.eqb i j then sg else 0) +
    rsum nc (fun c => oL o k c i * (rg Gm (k * nc + c) * oL o k c j)).
  Definition Sh (k i j : nat) : R := cS o k i j +
    rsum nc (fun c => oL o k c i * (rg Gm (k * nc + c) * oE o k c j)).

  Lemma Qh_sym k i j : (k < N + 1)%nat -> (i < nx)%nat -> (j < nx)%nat -> Qh k i j = Qh k j i.
  Proof.
    intros. unfold Qh. rewrite (symQ k i j), (Nat.eqb_sym i j) by assumption. f_equal. apply rsum_ext; intros; ring.
  Qed.
  Lemma Rh_sym k i j : (k < N + 1)%nat -> (i < nu)%nat -> (j < nu)%nat -> Rh k i j = Rh k j i.
  Proof.
    intros. unfold Rh. rewrite (symR k i j), (Nat.eqb_sym i j) by assumption. f_equal. apply rsum_ext; intros; ring.
  Qed.

  Ltac stage H :=
    let E := fresh "E" in let R := fresh "R" in let C := fresh "C" in
    match type of H with sok ?s ?n ?r ?c =>
      match goal with |- context [at_ s ?k] =>
        destruct (sok_stg s n r c k H) as (E & R & C); [lia|];
        rewrite E; cbn [rbind]
      end end.
  Ltac shapes := unfold shape;
    repeat match goal with H : mr ?M = _ |- context [mr ?M] => rewrite H end;
    repeat match goal with H : mc ?M = _ |- context [mc ?M] => rewrite H end;
    rewrite ?Nat.eqb_refl; cbn [andb ub_unless rbind].

  (* E' diag(G) F *)
  Lemma weighted E F k n m (CE CF : nat -> nat -> R) i j : mr E = nc -> mc E = n -> mr F = nc -> mc F = m ->
    (forall a b, (a < nc)%nat -> (b < n)%nat -> rm E a b = CE a b) ->
    (forall a b, (a < nc)%nat -> (b < m)%nat -> rm F a b = CF a b) ->
    (i < n)%nat -> (j < m)%nat ->
    rm (mm Rops (mtrans Rops E) (mdiag_l Rops (vseg Rops Gm (k * nc) nc) F)) i j =
    rsum nc (fun c => CE c i * (rg Gm (k * nc + c) * CF c j)).
  Proof.
    intros E1 E2 F1 F2 HE HF Hi Hj.
    rewrite mm_entry; cbn [mtrans mdiag_l mtab mr mc]; try congruence; try lia.
    rewrite E1. apply rsum_ext. intros c Hc. unfold mtrans, mdiag_l.
    rewrite !(mget_mtab Rops) by (try congruence; lia).
    rewrite HE, HF by assumption. unfold vseg. rewrite (vget_tab Rops) by exact Hc. reflexivity.
  Qed.

  Lemma augment_R k st : stage_ok nx nu st -> (k < N + 1)%nat -> exists Q Rm Sm,
    augment Rops d sg Gm k st = Ok (Q, Rm, Sm) /\
    mr Q = nx /\ mc Q = nx /\ mr Rm = nu /\ mc Rm = nu /\ mr Sm = nu /\ mc Sm = nx /\
    (forall i j, (i < nx)%nat -> (j <= i)%nat -> rm Q i j = Qh k i j) /\
    (forall i j, (i < nu)%nat -> (j <= i)%nat -> rm Rm i j = Rh k i j) /\
    (forall i j, (i < nu)%nat -> (j < nx)%nat -> rm Sm i j = Sh k i j).
  Proof.
    intros (A1 & A2 & A3 & A4 & A5 & A6) Hk.
    destruct Hd as [EN Ex Eu Ec Ez El Ev HQ HR HS Hq Hr HA HB Hc HE HL HD Hx0].
    unfold augment. rewrite Ex, Eu, Ec. stage HE. stage HL. stage HQ. stage HR. stage HS. shapes.
    do 3 eexists. split; [reflexivity|].
    cbn [mr mc mlower_assign madd mtab].
    split; [exact A1|]. split; [exact A2|]. split; [exact A3|]. split; [exact A4|].
    split; [assumption|]. split; [assumption|].
    split; [|split].
    - intros i j Hi Hj.
      rewrite mget_lower by (cbn [mr mc mlower_assign mtab]; lia).
      destruct (Nat.leb_spec j i); [|lia].
      rewrite mget_madd by (cbn [mr mc mlower_assign mtab]; lia).
      rewrite mget_lower by lia. destruct (Nat.leb_spec j i); [|lia].
      rewrite mget_madd by lia. unfold meye. rewrite (mget_mtab Rops) by lia.
      rewrite (weighted _ _ k nx nx (oE o k) (oE o k)); try assumption; try lia;
        try (intros; apply (ds_E _ _ Hs); assumption).
      rewrite (ds_Q _ _ Hs) by lia. unfold Qh. cbn [o_add o_mul o_one o_zero Rops].
      destruct (Nat.eqb i j); ring.
    - intros i j Hi Hj.
      rewrite mget_lower by (cbn [mr mc mlower_assign mtab]; lia).
      destruct (Nat.leb_spec j i); [|lia].
      rewrite mget_madd by (cbn [mr mc mlower_assign mtab]; lia).
      rewrite mget_lower by lia. destruct (Nat.leb_spec j i); [|lia].
      rewrite mget_madd by lia. unfold meye. rewrite (mget_mtab Rops) by lia.
      rewrite (weighted _ _ k nu nu (oL o k) (oL o k)); try assumption; try lia;
        try (intros; apply (ds_L _ _ Hs); assumption).
      rewrite (ds_R _ _ Hs) by lia. unfold Rh. cbn [o_add o_mul o_one o_zero Rops].
      destruct (Nat.eqb i j); ring.
    - intros i j Hi Hj.
      rewrite mget_madd by lia.
      rewrite (weighted _ _ k nu nx (oL o k) (oE o k)); try assumption; try lia;
        try (intros; (apply (ds_L _ _ Hs) || apply (ds_E _ _ Hs)); assumption).
      rewrite (ds_S _ _ Hs) by lia. reflexivity.
  Qed.

  Notation Pi st := (gram nx (lo (st_L st))).
  Notation Xi st := (rm (inv_llt Rops LA (st_L st) nx)).

  (* the equations satisfied by stage k *)
  Record stage_eqs (k : nat) (st : rstage R) : Prop := {
    se_L : tri (st_L st) nx; se_Mt : tri (st_M st) nx; se_SGt : tri (st_SG st) nu;
    se_SMr : mr (st_SM st) = nu; se_SMc : mc (st_SM st) = nx;
    se_M : forall i j, (i < nx)%nat -> (j < nx)%nat -> gram nx (lo (st_M st)) i j = Qh k i j + Xi st i j;
    se_SM : forall i j, (i < nu)%nat -> (j < nx)%nat ->
      rsum nx (fun c => rm (st_SM st) i c * lo (st_M st) j c) = Sh k i j;
    se_SG : forall i j, (i < nu)%nat -> (j < nu)%nat ->
      gram nu (lo (st_SG st)) i j = Rh k i j - gram nx (rm (st_SM st)) i j }.
  (* the link to stage k+1, whose L factor is L1 *)
  Record link_eqs (k : nat) (st : rstage R) (L1 : mat R) : Prop := {
    le_AMr : mr (st_AM st) = nx; le_AMc : mc (st_AM st) = nx;
    le_Pr : mr (st_P st) = nx; le_Pc : mc (st_P st) = nu;
    le_AM : forall i j, (i < nx)%nat -> (j < nx)%nat ->
      rsum nx (fun c => rm (st_AM st) i c * lo (st_M st) j c) = oA o k i j;
    le_P : forall i j, (i < nx)%nat -> (j < nu)%nat ->
      rsum nu (fun c => rm (st_P st) i c * lo (st_SG st) j c) =
      rsum nx (fun c => rm (st_AM st) i c * rm (st_SM st) j c) - oB o k i j;
    le_Pi : forall i j, (i < nx)%nat -> (j < nx)%nat ->
      gram nx (lo L1) i j =
      (if Nat.eqb i j then sg else 0) + gram nu (rm (st_P st)) i j + gram nx (rm (st_AM st)) i j }.

  Inductive chain : nat -> list (rstage R) -> Prop :=
  | ch_last st : stage_eqs N st -> chain N [st]
  | ch_cons k st st1 l : (k < N)%nat -> stage_eqs k st -> link_eqs k st (st_L st1) ->
      chain (S k) (st1 :: l) -> chain k (st :: st1 :: l).

  Lemma mmt_entry A n m i j : mr A = n -> mc A = m -> (i < n)%nat -> (j < n)%nat ->
    rm (mm Rops A (mtrans Rops A)) i j = gram m (rm A) i j.
  Proof.
    intros H1 H2 Hi Hj. rewrite mm_entry; cbn [mtrans mtab mr mc]; try congruence; try lia.
    rewrite H2. apply rsum_ext. intros k Hk. unfold mtrans. rewrite (mget_mtab Rops) by congruence. reflexivity.
  Qed.
  Lemma mmt2_entry A B n p m i j : mr A = n -> mc A = m -> mr B = p -> mc B = m -> (i < n)%nat -> (j < p)%nat ->
    rm (mm Rops A (mtrans Rops B)) i j = rsum m (fun k => rm A i k * rm B j k).
  Proof.
    intros H1 H2 H3 H4 Hi Hj. rewrite mm_entry; cbn [mtrans mtab mr mc]; try congruence; try lia.
    rewrite H2. apply rsum_ext. intros k Hk. unfold mtrans. rewrite (mget_mtab Rops) by congruence. reflexivity.
  Qed.

  (* the positive semidefiniteness needed for the factorisations to succeed *)
  Definition forms_ok : Prop := forall k x u, (k < N + 1)%nat ->
    sg * (rsum nx (fun i => x i * x i) + rsum nu (fun i => u i * u i)) <=
    qform nx (Qh k) x + 2 * rsum nu (fun i => u i * times nx (Sh k) x i) + qform nu (Rh k) u.

  (* success gives the equations; under [forms_ok] there is no failure *)
  Lemma ric_chain n : forall k L old, (k + n = N)%nat -> length old = S n -> Forall (stage_ok nx nu) old ->
    tri L nx ->
    (forall sts, ric_matrices Rops LA n k L d sg Gm old = Ok (Some sts) ->
       chain k sts /\ exists st l, sts = st :: l /\ st_L st = L) /\
    (forms_ok -> exists sts, ric_matrices Rops LA n k L d sg Gm old = Ok (Some sts)).
  Proof.
    induction n as [|n IH]; intros k L old Hk Hl F T.
    all: destruct old as [|ost old]; [discriminate|]; injection Hl as Hl.
    all: inversion F as [|? ? F1 F2]; subst.
    all: assert (Hk1 : (k < N + 1)%nat) by lia.
    all: destruct (augment_R k ost F1 Hk1) as (Q & Rm & Sm & EA & Q1 & Q2 & R1 & R2 & S1 & S2 & VQ & VR & VS).
    all: destruct F1 as (A1 & A2 & A3 & A4 & A5 & A6).
    all: pose proof (inv_llt_R LA LL L nx T) as IL; cbv zeta in IL; destruct IL as (I1 & I2 & I3 & I4).
    all: set (Linv := inv_llt Rops LA L nx) in *.
    all: set (KM := mlower_assign Rops (st_M ost) (madd Rops Q Linv)) in *.
    all: assert (KMe : forall i j, (i < nx)%nat -> (j <= i)%nat -> rm KM i j = Qh k i j + rm Linv i j)
      by (intros i j Hi Hj; unfold KM; rewrite mget_lower by lia; destruct (Nat.leb_spec j i); [|lia];
          rewrite mget_madd by lia; rewrite VQ by assumption; reflexivity).
    all: assert (KM1 : mr KM = nx) by exact A5.
    all: assert (KM2 : mc KM = nx) by exact A6.
    all: cbn [ric_matrices].
    all: rewrite EA; cbn [rbind].
    all: change (md_nx d) with (md_nx d); rewrite (mo_nx _ _ _ _ _ Hd).
    all: fold Linv; fold KM.
    all: assert (PM : forms_ok -> llt_inplace Rops LA KM <> None).
    1,3: intro FO; apply (llt_inplace_some LA LL KM nx KM1 KM2).
    1,2: apply (posdef_ext nx (fun i j => Qh k i j + rm Linv i j));
         [intros i j Hi Hj; destruct (Nat.leb_spec j i); [symmetry; apply KMe; assumption|];
          rewrite KMe by lia; rewrite (Qh_sym k i j), (I4 i j) by assumption; reflexivity|];
         apply (M_posdef nx nu sg Hsg (Qh k) (rm Linv) (gram nx (lo L)) (Sh k) (Rh k));
         [intros x u; apply FO; exact Hk1|exact I3|
          intro x; rewrite qform_gram; apply sq_nonneg].
    all: destruct (llt_inplace Rops LA KM) as [M|] eqn:EM;
         [|split; [intros ? E0; discriminate E0|intro FO; destruct (PM FO eq_refl)]].
    all: clear PM.
    all: destruct (llt_inplace_R LA LL KM M nx KM1 KM2 EM) as [TM GM].
    all: assert (eM : forall i j, (i < nx)%nat -> (j < nx)%nat -> gram nx (lo M) i j = Qh k i j + rm Linv i j)
      by (intros i j Hi Hj; destruct (Nat.lt_ge_cases j i) as [C|C];
          [rewrite (proj1 (GM i j Hi ltac:(lia))); apply KMe; lia|
           rewrite (proj2 (GM j i Hj C)), KMe by lia; rewrite (Qh_sym k j i), (I4 j i) by assumption; reflexivity]).
    all: destruct (rsolve_R LA LL M Sm nx nu TM S1 S2) as (SM1 & SM2 & SM3).
    all: set (SM := rsolve_mat Rops LA M Sm) in *.
    all: assert (eSM : forall i j, (i < nu)%nat -> (j < nx)%nat ->
           rsum nx (fun c => rm SM i c * lo M j c) = Sh k i j)
      by (intros i j Hi Hj; rewrite SM3 by assumption; apply VS; assumption).
    all: set (KG := msub Rops Rm (mm Rops SM (mtrans Rops SM))) in *.
    all: assert (KG1 : mr KG = nu) by exact R1.
    all: assert (KG2 : mc KG = nu) by exact R2.
    all: assert (KGe : forall i j, (i < nu)%nat -> (j <= i)%nat -> rm KG i j = Rh k i j - gram nx (rm SM) i j)
      by (intros i j Hi Hj; unfold KG; rewrite mget_msub by lia;
          rewrite VR by assumption; rewrite (mmt_entry SM nu nx) by (assumption || lia); reflexivity).
    all: assert (PG : forms_ok -> llt_inplace Rops LA KG <> None).
    1,3: intro FO; apply (llt_inplace_some LA LL KG nu KG1 KG2).
    1,2: apply (posdef_ext nu (fun i j => Rh k i j - gram nx (rm SM) i j));
         [intros i j Hi Hj; destruct (Nat.leb_spec j i); [symmetry; apply KGe; assumption|];
          rewrite KGe by lia; rewrite (Rh_sym k i j), (gram_sym nx _ i j) by assumption; reflexivity|];
         apply (SG_posdef nx nu sg Hsg (Qh k) (rm Linv) (gram nx (lo L)) (lo M) (Sh k) (rm SM) (Rh k));
         [intros x u; apply FO; exact Hk1|exact I3|
          intro x; rewrite qform_gram; apply sq_nonneg|exact eM|exact eSM|exact (tri_solvable LA LL M nx TM)].
    all: destruct (llt_inplace Rops LA KG) as [SG|] eqn:EG;
         [|split; [intros ? E0; discriminate E0|intro FO; destruct (PG FO eq_refl)]].
    all: clear PG.
    all: destruct (llt_inplace_R LA LL KG SG nu KG1 KG2 EG) as [TG GG].
    all: assert (eSG : forall i j, (i < nu)%nat -> (j < nu)%nat ->
           gram nu (lo SG) i j = Rh k i j - gram nx (rm SM) i j)
      by (intros i j Hi Hj; destruct (Nat.lt_ge_cases j i) as [C|C];
          [rewrite (proj1 (GG i j Hi ltac:(lia))); apply KGe; lia|
           rewrite (proj2 (GG j i Hj C)), KGe by lia; rewrite (Rh_sym k j i), (gram_sym nx _ j i) by assumption; reflexivity]).
    - (* last stage *)
      split; [|intros _; eexists; reflexivity].
      intros sts E. injection E as <-. replace k with N by lia. split.
      + replace k with N in * by lia. constructor. constructor; cbn [st_L st_M st_SG st_SM]; assumption.
      + do 2 eexists. split; reflexivity.
    - pose proof Hd as [EN Ex Eu Ec Ez El Ev HQ HR HS Hq Hr HA HB Hc HE HL HD Hx0].
      stage HA. stage HB. rewrite Eu. shapes.
      set (Ak := stg (m_A (md_m d)) k) in *. set (Bk := stg (m_B (md_m d)) k) in *.
      destruct (rsolve_R LA LL M Ak nx nx TM) as (AM1 & AM2 & AM3); [assumption|assumption|].
      set (AM := rsolve_mat Rops LA M Ak) in *.
      set (KP := msub Rops (mm Rops AM (mtrans Rops SM)) Bk) in *.
      destruct (rsolve_R LA LL SG KP nu nx TG) as (P1 & P2 & P3); [exact AM1|exact SM1|].
      set (Pm := rsolve_mat Rops LA SG KP) in *.
      set (K1 := madd Rops (madd Rops (meye Rops nx sg) (mm Rops Pm (mtrans Rops Pm)))
                      (mm Rops AM (mtrans Rops AM))) in *.
      assert (K1e : forall i j, (i < nx)%nat -> (j < nx)%nat -> rm K1 i j =
        (if Nat.eqb i j then sg else 0) + gram nu (rm Pm) i j + gram nx (rm AM) i j).
      { intros i j Hi Hj. unfold K1. rewrite mget_madd by (cbn [mr mc madd mtab meye]; lia).
        rewrite mget_madd by (cbn [mr mc madd mtab meye]; lia). unfold meye. rewrite (mget_mtab Rops) by lia.
        rewrite (mmt_entry Pm nx nu), (mmt_entry AM nx nx) by (assumption || lia).
        cbn [o_add o_mul o_one o_zero Rops]. destruct (Nat.eqb i j); ring. }
      assert (P1s : forms_ok -> llt_inplace Rops LA K1 <> None).
      { intro FO. apply (llt_inplace_some LA LL K1 nx eq_refl eq_refl).
        apply (posdef_ext nx (fun i j => (if Nat.eqb i j then sg else 0) + gram nu (rm Pm) i j + gram nx (rm AM) i j)).
        - intros i j Hi Hj. destruct (Nat.leb_spec j i); rewrite K1e by assumption; [reflexivity|].
          rewrite (Nat.eqb_sym j i), (gram_sym nu _ j i), (gram_sym nx _ j i). reflexivity.
        - apply next_posdef. exact Hsg. }
      destruct (llt_inplace Rops LA K1) as [L1|] eqn:EL1;
        [|split; [intros ? EX0; discriminate EX0|intro FO; destruct (P1s FO eq_refl)]].
      clear P1s.
      destruct (llt_inplace_R LA LL K1 L1 nx eq_refl eq_refl EL1) as [TL GL].
      destruct (IH (S k) L1 old) as [IH1 IH2]; [lia|exact Hl|exact F2|exact TL|].
      split.
      + intros sts EZ. destruct (ric_matrices Rops LA n (S k) L1 d sg Gm old) as [[rest|]|e|u] eqn:ER;
          cbn [rbind] in EZ; try discriminate.
        injection EZ as <-. destruct (IH1 rest eq_refl) as (C1 & st1 & l & -> & EL).
        split; [|do 2 eexists; split; reflexivity].
        apply ch_cons; [lia| | |exact C1].
        * constructor; cbn [st_L st_M st_SG st_SM]; assumption.
        * rewrite EL. constructor; cbn [st_AM st_M st_SG st_SM st_P]; try assumption.
          -- intros i j Hi Hj. rewrite AM3 by assumption. apply (ds_A _ _ Hs); lia.
          -- intros i j Hi Hj. rewrite P3 by assumption. unfold KP.
             rewrite mget_msub by (cbn [mr mc mm mtab mtrans]; lia).
             rewrite (mmt2_entry AM SM nx nu nx) by (assumption || lia).
             rewrite <- (ds_B _ _ Hs) by lia. reflexivity.
          -- intros i j Hi Hj. destruct (Nat.lt_ge_cases j i) as [CC|CC].
             ++ rewrite (proj1 (GL i j Hi ltac:(lia))). apply K1e; assumption.
             ++ rewrite (proj2 (GL j i Hj CC)), K1e by assumption.
                rewrite (Nat.eqb_sym j i), (gram_sym nu _ j i), (gram_sym nx _ j i). reflexivity.
      + intro FO. destruct (IH2 FO) as [rest ER]. rewrite ER. cbn [rbind]. eexists. reflexivity.
  Qed.
End Chain.
