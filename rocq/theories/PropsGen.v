(* C59: the problems made by the example generator, for every horizon. *)
From Verif Require Export OcpGenOk PropsApi PropsMpcData PropsConvex.
Local Open Scope res_scope.

(* ---------- specification ---------- *)
(* the four creator methods; sin is the sine function used for the initial state of the reactor *)
Inductive example := double_integrator | servo_motor | spacecraft | reactor.
Definition method {T} (O : Ops T) (sin : T -> T) (e : example) : gen T -> Z -> gen T * res unit :=
  match e with
  | double_integrator => DoubleIntegrator O | servo_motor => ServoMotor O
  | spacecraft => SpacecraftRelativeMotion O | reactor => CopolymerizationReactor O sin
  end.
(* states, controls, constraints per stage; the matrices of a stage *)
Definition sizes_of (e : example) : nat * nat * nat :=
  match e with
  | double_integrator => (2, 1, 6) | servo_motor => (4, 1, 4) | spacecraft => (6, 3, 12) | reactor => (18, 5, 10)
  end.
Definition stage_of {T} (O : Ops T) (sin : T -> T) (e : example) : stage T :=
  match e with
  | double_integrator => di_stage O | servo_motor => servo_stage O
  | spacecraft => craft_stage O | reactor => reactor_stage O sin
  end.
(* the number of simulation steps *)
Definition simulation_steps (e : example) : Z :=
  match e with double_integrator => 40 | servo_motor => 40 | spacecraft => 100 | reactor => 200 end.
(* the largest matrix sequence has a size in the range of int *)
Definition horizon_fits (e : example) (N : Z) : Prop :=
  let '(nx, nu, nc) := sizes_of e in
  in_int ((N + 1) * Z.of_nat (Nat.max nx nc) * Z.of_nat nx) = true.

(* sequence s holds n matrices of size r x c, and matrix k is F k *)
Definition holds {T} (s : mseq T) (n : Z) (r c : nat) (F : Z -> mat T) : Prop :=
  ms_N s = n /\ ms_nr s = Z.of_nat r /\ ms_nc s = Z.of_nat c /\
  forall k, (0 <= k < n)%Z -> mseq_at s k = Ok (F k).
(* The problem is st at each of the stages 0..N; the constraints of stage 0 do not involve the state. *)
Record repeats {T} (O : Ops T) (p : mpc_own T) (st : stage T) (N : Z) (nx nu nc : nat) : Prop := {
  rp_Q : holds (o_Q p) (N + 1) nx nx (fun _ => s_Q st); rp_R : holds (o_R p) (N + 1) nu nu (fun _ => s_R st);
  rp_S : holds (o_S p) (N + 1) nu nx (fun _ => s_S st); rp_q : holds (o_q p) (N + 1) nx 1 (fun _ => colmat (s_q st));
  rp_r : holds (o_r p) (N + 1) nu 1 (fun _ => colmat (s_r st)); rp_A : holds (o_A p) N nx nx (fun _ => s_A st);
  rp_B : holds (o_B p) N nx nu (fun _ => s_B st); rp_c : holds (o_c p) N nx 1 (fun _ => colmat (s_c st));
  rp_E : holds (o_E p) (N + 1) nc nx (fun k => if (k =? 0)%Z then mzero O nc nx else s_E st);
  rp_L : holds (o_L p) (N + 1) nc nu (fun _ => s_L st); rp_d : holds (o_d p) (N + 1) nc 1 (fun _ => colmat (s_d st));
  rp_x0 : o_x0 p = s_x0 st /\ length (o_x0 p) = nx }.

(* ---------- proofs ---------- *)
Section Generic.
  Context {T : Type} (O : Ops T).

  Lemma mtab_is r c f : mat_is (mtab (T:=T) r c f) r c.
  Proof. split; [reflexivity|]. split; [reflexivity|]. apply tab_length. Qed.
  Lemma colmat_is (v : vec T) n : length v = n -> mat_is (colmat v) n 1.
  Proof. intro H. split; [exact H|]. split; [reflexivity|]. cbn. rewrite H. lia. Qed.
  Lemma stage_E_is st r c k : mat_is (s_E st) r c -> mat_is (stage_E O st k) r c.
  Proof. intros (A & B & C). unfold stage_E. destruct (k =? 0); [|repeat split; assumption]. rewrite A, B. apply mtab_is. Qed.

  Definition fits (N : Z) (nx nc : nat) : bool := in_int ((N + 1) * Z.of_nat (Nat.max nx nc) * Z.of_nat nx).
  Lemma copy_ok g st N nx nu nc : stage_sizes st nx nu nc -> 2 <= nx -> 1 <= nu <= nx -> 1 <= nc -> (1 <= N)%Z ->
    fits N nx nc = true ->
    exists g', CopyOverHorizon O g st N = Ok g' /\
      ge_ready g' = true /\ (ge_N g' = N /\ ge_nx g' = Z.of_nat nx /\ ge_nu g' = Z.of_nat nu /\ ge_nc g' = Z.of_nat nc /\
      ge_nz g' = (N + 1) * (Z.of_nat nx + Z.of_nat nu) /\ ge_nl g' = (N + 1) * Z.of_nat nx /\ ge_nv g' = (N + 1) * Z.of_nat nc)%Z /\
      holds_stages O (ge_own g') st (Z.to_nat (N + 1)) nx nu nc (Z.to_nat (N + 1)) /\
      holds_dynamics O (ge_own g') st (Z.to_nat N) nx nu (Z.to_nat N) /\ o_x0 (ge_own g') = s_x0 st.
  Proof.
    intros SS Hx Hu Hc HN HF. unfold fits in HF. destruct SS as [SQ SR SS Sq Sr SA SB Sc SE SL Sd Sx].
    set (mx := Nat.max nx nc) in *.
    assert (X1 : nx <= mx) by apply Nat.le_max_l. assert (X2 : nc <= mx) by apply Nat.le_max_r. clearbody mx.
    unfold CopyOverHorizon. rewrite (proj1 SQ), (proj1 SR), (proj1 SE).
    assert (FI : forall a r c, (0 <= a <= N + 1)%Z -> r <= mx -> c <= nx -> in_int (a * Z.of_nat r * Z.of_nat c) = true).
    { intros a r c Ha Hr Hc'. eapply in_int_le; [|exact HF].
      assert (0 <= a * Z.of_nat r <= (N + 1) * Z.of_nat mx)%Z by nia. nia. }
    assert (F1 : forall a r, (0 <= a <= N + 1)%Z -> r <= mx -> in_int (a * Z.of_nat r) = true).
    { intros a r Ha Hr. rewrite <- (Z.mul_1_r (a * Z.of_nat r)). apply (FI a r 1); lia. }
    rewrite iadd_fits. 2:{ eapply in_int_le; [|exact (FI 1%Z mx nx ltac:(lia) ltac:(lia) ltac:(lia))]. nia. }
    cbn [rbind]. rewrite iadd_fits. 2:{ rewrite <- (Z.mul_1_r (N + 1)). apply (F1 (N + 1)%Z 1); lia. }
    cbn [rbind]. rewrite imul_fits. 2:{ eapply in_int_le; [|exact HF]. 
      assert ((N + 1) * 2 <= (N + 1) * Z.of_nat mx)%Z by nia. nia. }
    cbn [rbind]. rewrite imul_fits. 2:{ rewrite Z.mul_comm. apply F1; lia. }
    cbn [rbind]. rewrite imul_fits. 2:{ rewrite Z.mul_comm. apply F1; lia. }
    cbn [rbind].
    assert (NEW : forall a r c F, (0 <= a <= N + 1)%Z -> 1 <= r <= mx -> 1 <= c <= nx -> (forall k, mat_is (F k) r c) ->
              exists s, mseq_new O a (Z.of_nat r) (Z.of_nat c) = Ok s /\ filled O s (Z.to_nat a) r c F 0).
    { intros a r c F Ha Hr Hc' HM. destruct (filled_new O (Z.to_nat a) r c F) as (s & E1 & E2); try lia; try exact HM.
      - rewrite Z2Nat.id by lia. apply FI; lia.
      - rewrite Z2Nat.id in E1 by lia. eauto. }
    assert (N1 : forall a r F, (0 <= a <= N + 1)%Z -> 1 <= r <= mx -> (forall k, mat_is (F k) r 1) ->
              exists s, mseq_new O a (Z.of_nat r) 1 = Ok s /\ filled O s (Z.to_nat a) r 1 F 0).
    { intros. apply (NEW a r 1); auto; lia. }
    destruct (NEW (N + 1)%Z nx nx (fun _ => s_Q st)) as (Q & -> & FQ); try lia; [auto|]. cbn [rbind].
    destruct (NEW (N + 1)%Z nu nu (fun _ => s_R st)) as (R & -> & FR); try lia; [auto|]. cbn [rbind].
    destruct (NEW (N + 1)%Z nu nx (fun _ => s_S st)) as (S & -> & FS); try lia; [auto|]. cbn [rbind].
    destruct (N1 (N + 1)%Z nx (fun _ => colmat (s_q st))) as (q & -> & Fq); try lia; [intro; apply colmat_is; exact Sq|]. cbn [rbind].
    destruct (N1 (N + 1)%Z nu (fun _ => colmat (s_r st))) as (r & -> & Fr); try lia; [intro; apply colmat_is; exact Sr|]. cbn [rbind].
    destruct (NEW N nx nx (fun _ => s_A st)) as (A & -> & FA); try lia; [auto|]. cbn [rbind].
    destruct (NEW N nx nu (fun _ => s_B st)) as (B & -> & FB); try lia; [auto|]. cbn [rbind].
    destruct (N1 N nx (fun _ => colmat (s_c st))) as (c & -> & Fc); try lia; [intro; apply colmat_is; exact Sc|]. cbn [rbind].
    destruct (NEW (N + 1)%Z nc nx (stage_E O st)) as (E & -> & FE); try lia; [intro; apply stage_E_is; exact SE|]. cbn [rbind].
    destruct (NEW (N + 1)%Z nc nu (fun _ => s_L st)) as (L & -> & FL); try lia; [auto|]. cbn [rbind].
    destruct (N1 (N + 1)%Z nc (fun _ => colmat (s_d st))) as (d & -> & Fd); try lia; [intro; apply colmat_is; exact Sd|]. cbn [rbind].
    destruct (stage_loop O st (Z.to_nat (N + 1)) nx nu nc (Z.to_nat N) (Z.to_nat (N + 1)) 0
                (mkMO Q R S q r A B c E L d (s_x0 st))) as (p1 & E1 & H1 & H2 & H3).
    { constructor; assumption. } { constructor; assumption. } { lia. }
    unfold for_n. rewrite E1. cbn [rbind].
    destruct (dynamics_loop O st (Z.to_nat N) nx nu nc (Z.to_nat (N + 1)) (Z.to_nat N) 0 p1 H2 H1 ltac:(lia)) as (p2 & E2 & H4 & H5 & H6).
    rewrite E2. cbn [rbind]. eexists. split; [reflexivity|]. cbn [ge_ready ge_N ge_nx ge_nu ge_nc ge_nz ge_nl ge_nv ge_own].
    split; [reflexivity|]. split; [repeat split; lia|]. split; [exact H5|]. split; [exact H4|]. rewrite H6. exact H3.
  Qed.

  (* a horizon that does not fit overflows an int *)
  Lemma new_cases a r c : (0 <= a)%Z -> (1 <= r)%Z -> (1 <= c)%Z -> 
    (exists s, mseq_new O a r c = Ok s /\ in_int (a * r * c) = true) \/ (mseq_new O a r c = UB UBOverflow).
  Proof.
    intros Ha Hr Hc. unfold mseq_new.
    replace (a <? 0)%Z with false by (symmetry; apply Z.ltb_ge; lia).
    replace ((r <=? 0) || (c <=? 0))%Z with false by (symmetry; rewrite orb_false_iff, !Z.leb_gt; lia).
    cbn [negb throw_unless rbind]. unfold imul. destruct (in_int (a * r)); [cbn [rbind]|right; reflexivity].
    destruct (in_int (a * r * c)) eqn:E; [cbn [rbind]; left; eauto|right; reflexivity].
  Qed.
  Lemma copy_overflow g st N nx nu nc : stage_sizes st nx nu nc -> 1 <= nx -> 1 <= nu -> 1 <= nc -> (1 <= N)%Z ->
    fits N nx nc = false -> CopyOverHorizon O g st N = UB UBOverflow.
  Proof.
    intros SS Hx Hu Hc HN HF. unfold fits in HF. destruct SS as [SQ SR SS Sq Sr SA SB Sc SE SL Sd Sx].
    unfold CopyOverHorizon. rewrite (proj1 SQ), (proj1 SR), (proj1 SE).
    unfold iadd. destruct (in_int (Z.of_nat nx + Z.of_nat nu)); [cbn [rbind]|reflexivity].
    destruct (in_int (N + 1)) eqn:EN; [cbn [rbind]|reflexivity].
    unfold imul at 1 2 3. destruct (in_int ((Z.of_nat nx + Z.of_nat nu) * (N + 1))); [cbn [rbind]|reflexivity].
    destruct (in_int (Z.of_nat nx * (N + 1))); [cbn [rbind]|reflexivity].
    destruct (in_int (Z.of_nat nc * (N + 1))); [cbn [rbind]|reflexivity].
    destruct (new_cases (N + 1) (Z.of_nat nx) (Z.of_nat nx)) as [(s1 & -> & I1)| ->]; try lia; [cbn [rbind]|reflexivity].
    destruct (new_cases (N + 1) (Z.of_nat nu) (Z.of_nat nu)) as [(s2 & -> & I2)| ->]; try lia; [cbn [rbind]|reflexivity].
    destruct (new_cases (N + 1) (Z.of_nat nu) (Z.of_nat nx)) as [(s3 & -> & I3)| ->]; try lia; [cbn [rbind]|reflexivity].
    destruct (new_cases (N + 1) (Z.of_nat nx) 1) as [(s4 & -> & I4)| ->]; try lia; [cbn [rbind]|reflexivity].
    destruct (new_cases (N + 1) (Z.of_nat nu) 1) as [(s5 & -> & I5)| ->]; try lia; [cbn [rbind]|reflexivity].
    destruct (new_cases N (Z.of_nat nx) (Z.of_nat nx)) as [(s6 & -> & I6)| ->]; try lia; [cbn [rbind]|reflexivity].
    destruct (new_cases N (Z.of_nat nx) (Z.of_nat nu)) as [(s7 & -> & I7)| ->]; try lia; [cbn [rbind]|reflexivity].
    destruct (new_cases N (Z.of_nat nx) 1) as [(s8 & -> & I8)| ->]; try lia; [cbn [rbind]|reflexivity].
    destruct (new_cases (N + 1) (Z.of_nat nc) (Z.of_nat nx)) as [(s9 & _ & I9)| ->]; try lia; [|reflexivity].
    exfalso. destruct (Nat.max_spec nx nc) as [[_ M]|[_ M]]; rewrite M in HF; congruence.
  Qed.
End Generic.

(* ---------- the four stages ---------- *)
Lemma stage_sizes_of {T} (O : Ops T) sin e : let '(nx, nu, nc) := sizes_of e in stage_sizes (stage_of O sin e) nx nu nc.
Proof.
  destruct e; cbn [sizes_of stage_of]; constructor; unfold di_stage, servo_stage, craft_stage, reactor_stage;
    cbn [s_Q s_R s_S s_q s_r s_A s_B s_c s_E s_L s_d s_x0]; try apply mtab_is; try reflexivity.
Qed.

Section Props.
  Context {T : Type} (O : Ops T) (sin : T -> T).

  Lemma sizes_range e : let '(nx, nu, nc) := sizes_of e in 2 <= nx /\ 1 <= nu <= nx /\ 1 <= nc.
  Proof. destruct e; cbn; lia. Qed.
  Lemma method_create e : exists C Ts, method O sin e = gen_create O (stage_of O sin e) C Ts.
  Proof. destruct e; do 2 eexists; reflexivity. Qed.

  Lemma filled_holds (s : mseq T) n r c F F' : (0 <= n)%Z -> filled O s (Z.to_nat n) r c F (Z.to_nat n) ->
    (forall k, (0 <= k)%Z -> F' k = F (Z.to_nat k)) -> holds s n r c F'.
  Proof.
    intros Hn H E. pose proof H as ((E1 & E2 & E3 & _) & _). rewrite Z2Nat.id in E1 by lia.
    split; [exact E1|]. split; [exact E2|]. split; [exact E3|]. intros k Hk.
    rewrite E, <- (filled_at O s (Z.to_nat n) r c F (Z.to_nat k) H) by lia. rewrite Z2Nat.id by lia. reflexivity.
  Qed.
  Lemma created e g N : (1 <= N)%Z -> horizon_fits e N -> let '(nx, nu, nc) := sizes_of e in
    exists g' p, method O sin e g N = (g', Ok tt) /\ GetFBstabInput g' = Ok p /\ GetFBstabInputRef g' = Ok (ref_of_own p) /\
      (ge_N g' = N /\ ge_nx g' = Z.of_nat nx /\ ge_nu g' = Z.of_nat nu /\ ge_nc g' = Z.of_nat nc /\
       ge_nz g' = (N + 1) * (Z.of_nat nx + Z.of_nat nu) /\ ge_nl g' = (N + 1) * Z.of_nat nx /\ ge_nv g' = (N + 1) * Z.of_nat nc)%Z /\
      holds_stages O p (stage_of O sin e) (Z.to_nat (N + 1)) nx nu nc (Z.to_nat (N + 1)) /\
      holds_dynamics O p (stage_of O sin e) (Z.to_nat N) nx nu (Z.to_nat N) /\ o_x0 p = s_x0 (stage_of O sin e).
  Proof.
    intros HN HF. pose proof (sizes_range e) as SR. pose proof (stage_sizes_of O sin e) as SS. unfold horizon_fits in HF.
    destruct (sizes_of e) as [[nx nu] nc]. destruct SR as (R1 & R2 & R3).
    destruct (method_create e) as (C & Ts & ->). unfold gen_create.
    replace (N <=? 0)%Z with false by (symmetry; apply Z.leb_gt; lia).
    destruct (copy_ok O g (stage_of O sin e) N nx nu nc SS R1 R2 R3 HN HF) as (g' & -> & RD & SZ & HS & HD & X0).
    do 2 eexists. split; [reflexivity|]. unfold GetFBstabInput, GetFBstabInputRef. cbn [ge_ready ge_own].
    rewrite RD. cbn [throw_unless rbind]. split; [reflexivity|]. split; [reflexivity|]. split; [exact SZ|]. auto.
  Qed.

  (* A creator rejects a horizon below 1 and leaves the generator as it was; one whose sequences do not
     fit an int overflows.  Without a problem the accessors throw. *)
  Theorem C59_bad_horizon : forall e g N, 
    ((N <= 0)%Z -> method O sin e g N = (g, Throw EHorizon)) /\
    ((1 <= N)%Z -> ~ horizon_fits e N -> snd (method O sin e g N) = UB UBOverflow).
  Proof.
    intros e g N. destruct (method_create e) as (C & Ts & E). rewrite E. unfold gen_create. split.
    - intro H. apply Z.leb_le in H. rewrite H. reflexivity.
    - intros H HF. replace (N <=? 0)%Z with false by (symmetry; apply Z.leb_gt; lia).
      pose proof (sizes_range e) as SR. pose proof (stage_sizes_of O sin e) as SS. unfold horizon_fits in HF.
      destruct (sizes_of e) as [[nx nu] nc]. destruct SR as (R1 & R2 & R3).
      rewrite (copy_overflow O g (stage_of O sin e) N nx nu nc SS) by (try lia; apply not_true_is_false; exact HF).
      reflexivity.
  Qed.
  Theorem C59_no_problem :
    GetFBstabInput (gen_new (T:=T)) = Throw ENoProblem /\ GetFBstabInputRef (gen_new (T:=T)) = Throw ENoProblem /\
    GetSimulationInputs (gen_new (T:=T)) = Throw ENoProblem.
  Proof. repeat split. Qed.

  (* The generated problem repeats the stage over the horizon, whatever the generator held before; the
     owned problem and the references describe the same data; the sizes are those of the problem. *)
  Theorem C59_generated : forall e g N, (1 <= N)%Z -> horizon_fits e N ->
    let '(nx, nu, nc) := sizes_of e in
    exists g' p, method O sin e g N = (g', Ok tt) /\ GetFBstabInput g' = Ok p /\
      GetFBstabInputRef g' = Ok (ref_of_own p) /\ repeats O p (stage_of O sin e) N nx nu nc /\
      ProblemSize g' = (N, Z.of_nat nx, Z.of_nat nu, Z.of_nat nc) /\
      (ge_nz g' = (N + 1) * (Z.of_nat nx + Z.of_nat nu) /\ ge_nl g' = (N + 1) * Z.of_nat nx /\
       ge_nv g' = (N + 1) * Z.of_nat nc)%Z.
  Proof.
    intros e g N HN HF. pose proof (created e g N HN HF) as K. pose proof (stage_sizes_of O sin e) as SS.
    destruct (sizes_of e) as [[nx nu] nc].
    destruct K as (g' & p & E1 & E2 & E3 & (Z1 & Z2 & Z3 & Z4 & Z5 & Z6 & Z7) & [H1 H2 H3 H4 H5 H6 H7 H8] & [D1 D2 D3] & X0).
    exists g', p. split; [exact E1|]. split; [exact E2|]. split; [exact E3|]. split.
    - constructor; try (eapply filled_holds; [lia|eassumption|reflexivity]).
      + eapply filled_holds; [lia|exact H6|]. intros k Hk. unfold stage_E. destruct (ss_E _ _ _ _ SS) as (-> & -> & _).
        destruct (Z.eqb_spec k 0); destruct (Nat.eqb_spec (Z.to_nat k) 0); try reflexivity; lia.
      + rewrite X0. split; [reflexivity|apply (ss_x0 _ _ _ _ SS)].
    - unfold ProblemSize. rewrite Z1, Z2, Z3, Z4. auto.
  Qed.

  (* The simulation data is the model used for prediction, started where the prediction starts. *)
  Theorem C59_simulation : forall e g N g' p, (1 <= N)%Z -> horizon_fits e N ->
    method O sin e g N = (g', Ok tt) -> GetFBstabInput g' = Ok p ->
    let '(nx, nu, nc) := sizes_of e in
    exists sm, GetSimulationInputs g' = Ok sm /\ si_x0 sm = o_x0 p /\
      (forall k, (0 <= k < N)%Z -> mseq_at (o_A p) k = Ok (si_A sm) /\ mseq_at (o_B p) k = Ok (si_B sm)) /\
      mc (si_C sm) = nx /\ si_D sm = mzero O (mr (si_C sm)) nu /\ si_T sm = simulation_steps e.
  Proof.
    intros e g N g' p HN HF M G. pose proof (C59_generated e g N HN HF) as K. pose proof (stage_sizes_of O sin e) as SS.
    assert (CR : exists C Ts, method O sin e = gen_create O (stage_of O sin e) C Ts /\
              mc C = fst (fst (sizes_of e)) /\ Ts = simulation_steps e)
      by (destruct e; do 2 eexists; (split; [reflexivity|split; reflexivity])).
    destruct (sizes_of e) as [[nx nu] nc]. destruct K as (g'' & p' & E1 & E2 & _ & RP & _).
    rewrite M in E1. injection E1 as <-. rewrite G in E2. injection E2 as <-.
    destruct CR as (C & Ts & EC & MC & TS). rewrite EC in M. unfold gen_create in M.
    replace (N <=? 0)%Z with false in M by (symmetry; apply Z.leb_gt; lia).
    destruct (CopyOverHorizon O g (stage_of O sin e) N) as [gc| |] eqn:E; [|discriminate M|discriminate M].
    injection M as <-. unfold GetFBstabInput in G. unfold GetSimulationInputs. cbn [ge_ready ge_own ge_Asim ge_Bsim ge_Csim ge_Dsim ge_T] in *.
    destruct (ge_ready gc); [|discriminate G]. cbn [throw_unless rbind] in *. injection G as <-.
    eexists. split; [reflexivity|]. cbn [si_x0 si_A si_B si_C si_D si_T]. split; [reflexivity|]. split; [|split; [exact MC|split; [|exact TS]]].
    - intros k Hk. destruct RP as [_ _ _ _ _ (_ & _ & _ & HA) (_ & _ & _ & HB) _ _ _ _ _]. auto.
    - rewrite (proj1 (proj2 (ss_B _ _ _ _ SS))). reflexivity.
  Qed.

  (* FBstabMpc accepts it: a solver made with these sizes and given a guess of these sizes neither
     reports a size error nor runs into undefined behaviour. *)
  Lemma accepted e g N g' p x : (1 <= N)%Z -> horizon_fits e N ->
    method O sin e g N = (g', Ok tt) -> GetFBstabInput g' = Ok p ->
    (Z.of_nat (length (v_z x)) = ge_nz g' /\ Z.of_nat (length (v_l x)) = ge_nl g' /\
     Z.of_nat (length (v_v x)) = ge_nv g' /\ Z.of_nat (length (v_y x)) = ge_nv g') ->
    seqs_valid (ref_of_own p) /\ single_columns (ref_of_own p) /\ mpc_fits (ref_of_own p) /\
    mpc_sizes (ge_N g') (ge_nx g') (ge_nu g') (ge_nc g') (ref_of_own p) x.
  Proof.
    intros HN HF M G X. pose proof (created e g N HN HF) as K. pose proof (stage_sizes_of O sin e) as SS.
    pose proof (sizes_range e) as SR. unfold horizon_fits in HF.
    destruct (sizes_of e) as [[nx nu] nc]. destruct SR as (R1 & R2 & R3).
    destruct K as (g'' & p' & E1 & E2 & E3 & (Z1 & Z2 & Z3 & Z4 & Z5 & Z6 & Z7) & [H1 H2 H3 H4 H5 H6 H7 H8] & [D1 D2 D3] & X0).
    rewrite M in E1. injection E1 as <-. rewrite G in E2. injection E2 as <-.
    assert (SZ : forall s n r c F, (0 <= n)%Z -> filled O s (Z.to_nat n) r c F (Z.to_nat n) ->
      ms_N s = n /\ ms_nr s = Z.of_nat r /\ ms_nc s = Z.of_nat c).
    { intros s n r c F Hn ((A1 & A2 & A3 & _) & _). rewrite Z2Nat.id in A1 by lia. auto. }
    assert (N0 : (0 <= N)%Z) by lia. assert (N1 : (0 <= N + 1)%Z) by lia.
    split; [|split; [|split]].
    - constructor; unfold ref_of_own; cbn [m_Q m_R m_S m_q m_r m_A m_B m_c m_E m_L m_d]; eapply filled_valid; eassumption.
    - unfold single_columns, ref_of_own, map_of_mseq; cbn [m_q m_r m_c m_d mp_nc].
      repeat split; [apply (SZ _ _ _ _ _ N1 H4)|apply (SZ _ _ _ _ _ N1 H5)|apply (SZ _ _ _ _ _ N0 D3)|apply (SZ _ _ _ _ _ N1 H8)].
    - unfold mpc_fits, ref_of_own, map_of_mseq; cbn [m_Q m_R mp_N mp_nr].
      destruct (SZ _ _ _ _ _ N1 H1) as (-> & -> & _). destruct (SZ _ _ _ _ _ N1 H2) as (_ & -> & _).
      eapply in_int_le; [|exact HF]. pose proof (Nat.le_max_l nx nc) as ML. set (mx := Nat.max nx nc) in *. clearbody mx.
      assert ((N + 1) * 2 <= (N + 1) * Z.of_nat mx)%Z by nia. nia.
    - rewrite Z1, Z2, Z3, Z4. rewrite Z5, Z6, Z7 in X.
      pose proof (SZ _ _ _ _ _ N1 H1). pose proof (SZ _ _ _ _ _ N1 H2). pose proof (SZ _ _ _ _ _ N1 H3).
      pose proof (SZ _ _ _ _ _ N1 H4). pose proof (SZ _ _ _ _ _ N1 H5). pose proof (SZ _ _ _ _ _ N1 H6).
      pose proof (SZ _ _ _ _ _ N1 H7). pose proof (SZ _ _ _ _ _ N1 H8). pose proof (SZ _ _ _ _ _ N0 D1).
      pose proof (SZ _ _ _ _ _ N0 D2). pose proof (SZ _ _ _ _ _ N0 D3). clear H1 H2 H3 H4 H5 H6 H7 H8 D1 D2 D3.
      constructor; unfold ref_of_own, map_of_mseq, seq_size, seq_rows;
        cbn [m_Q m_R m_S m_q m_r m_A m_B m_c m_E m_L m_d m_x0 mp_N mp_nr mp_nc]; try exact X;
        try (rewrite X0, (ss_x0 _ _ _ _ SS); reflexivity);
        intuition idtac.
  Qed.
  Theorem C59_accepted : forall e g N g' p LA s k x el, (1 <= N)%Z -> horizon_fits e N ->
    o_eqb O (o_zero O) (o_zero O) = true ->
    method O sin e g N = (g', Ok tt) -> GetFBstabInput g' = Ok p ->
    mpc_reach O LA (ge_N g') (ge_nx g') (ge_nu g') (ge_nc g') s ->
    (Z.of_nat (length (v_z x)) = ge_nz g' /\ Z.of_nat (length (v_l x)) = ge_nl g' /\
     Z.of_nat (length (v_v x)) = ge_nv g' /\ Z.of_nat (length (v_y x)) = ge_nv g') ->
    let out := sr_out (snd (FBstabMpc_SolveOwned O LA s p k x el)) in
    (forall err, out = Throw err -> size_error err = false) /\ (forall u, out <> UB u).
  Proof.
    intros e g N g' p LA s k x el HN HF ZE M G Hr X. cbv zeta. unfold FBstabMpc_SolveOwned.
    destruct (accepted e g N g' p x HN HF M G X) as (V & C & F & SZ). split.
    - eapply (C19_mpc_size_validation O LA ZE); eassumption.
    - intro u. eapply (C20_mpc_no_ub O LA ZE); eassumption.
  Qed.
  (* and such a solver can be made *)
  Theorem C59_constructible : forall e g N g' ga, (1 <= N)%Z -> horizon_fits e N ->
    method O sin e g N = (g', Ok tt) ->
    exists s, FBstabMpc_new O ga (ge_N g') (ge_nx g') (ge_nu g') (ge_nc g') = Ok s /\ mps_options s = DefaultParameters O.
  Proof.
    intros e g N g' ga HN HF M. pose proof (created e g N HN HF) as K.
    pose proof (sizes_range e) as SR. unfold horizon_fits in HF.
    destruct (sizes_of e) as [[nx nu] nc]. destruct SR as (R1 & R2 & R3).
    destruct K as (g'' & p' & E1 & _ & _ & (Z1 & Z2 & Z3 & Z4 & _) & _).
    rewrite M in E1. injection E1 as <-. rewrite Z1, Z2, Z3, Z4.
    pose proof (C19_mpc_ctor O ga N (Z.of_nat nx) (Z.of_nat nu) (Z.of_nat nc)) as C.
    replace ((N <? 1) || (Z.of_nat nx <? 1) || (Z.of_nat nu <? 1) || (Z.of_nat nc <? 1))%Z with false in C
      by (symmetry; rewrite !orb_false_iff, !Z.ltb_ge; lia).
    pose proof (Nat.le_max_l nx nc) as ML. pose proof (Nat.le_max_r nx nc) as MR. set (mx := Nat.max nx nc) in *. clearbody mx.
    assert (A : ((N + 1) * 2 <= (N + 1) * Z.of_nat mx)%Z) by nia.
    rewrite (in_int_le ((N + 1) * (Z.of_nat nx + Z.of_nat nu)) ((N + 1) * Z.of_nat mx * Z.of_nat nx) ltac:(nia) HF) in C.
    assert (A2 : (0 <= (N + 1) * Z.of_nat nc <= (N + 1) * Z.of_nat mx)%Z) by nia.
    rewrite (in_int_le ((N + 1) * Z.of_nat nc) ((N + 1) * Z.of_nat mx * Z.of_nat nx) ltac:(nia) HF) in C. exact C.
  Qed.
End Props.
