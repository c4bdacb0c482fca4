(* The MPC data class and the Riccati linear solver satisfy the laws [Refine.v] needs. *)
From Verif Require Export Refine Riccati.

Definition sok {T} (s : mapseq T) (n r c : nat) : Prop :=
  forall k, k < n -> exists M, at_ s k = Ok M /\ mr M = r /\ mc M = c.

Record mpc_ok {T} (d : mpc_data T) (N nx nu nc : nat) : Prop := {
  mo_N : md_N d = N; mo_nx : md_nx d = nx; mo_nu : md_nu d = nu; mo_nc : md_nc d = nc;
  mo_nz : md_nz d = (N + 1) * (nx + nu); mo_nl : md_nl d = (N + 1) * nx;
  mo_nv : md_nv d = (N + 1) * nc;
  mo_Q : sok (m_Q (md_m d)) (N + 1) nx nx; mo_R : sok (m_R (md_m d)) (N + 1) nu nu;
  mo_S : sok (m_S (md_m d)) (N + 1) nu nx; mo_q : sok (m_q (md_m d)) (N + 1) nx 1;
  mo_r : sok (m_r (md_m d)) (N + 1) nu 1; mo_A : sok (m_A (md_m d)) N nx nx;
  mo_B : sok (m_B (md_m d)) N nx nu; mo_c : sok (m_c (md_m d)) N nx 1;
  mo_E : sok (m_E (md_m d)) (N + 1) nc nx; mo_L : sok (m_L (md_m d)) (N + 1) nc nu;
  mo_d : sok (m_d (md_m d)) (N + 1) nc 1; mo_x0 : length (m_x0 (md_m d)) = nx }.

(* the k-th matrix *)
Definition stg {T} (s : mapseq T) (k : nat) : mat T := unres (mkMat 0 0 []) (at_ s k).

Lemma sok_stg {T} (s : mapseq T) n r c k : sok s n r c -> k < n ->
  at_ s k = Ok (stg s k) /\ mr (stg s k) = r /\ mc (stg s k) = c.
Proof. intros H Hk. destruct (H k Hk) as (M & E & H1 & H2). unfold stg. rewrite E. cbn. auto. Qed.

Section ForLoops.
  Context {S : Type} (P : S -> Prop).
  Lemma for_from_ok (f : nat -> S -> res S) n : forall i s,
    P s -> (forall j s, i <= j < i + n -> P s -> exists s', f j s = Ok s' /\ P s') ->
    exists s', for_from n i f s = Ok s' /\ P s'.
  Proof.
    induction n as [|n IH]; intros i s Hs Hf; cbn [for_from].
    - eauto.
    - destruct (Hf i s) as (s1 & E1 & H1); [lia|exact Hs|]. rewrite E1. cbn [rbind].
      apply IH; [exact H1|]. intros j s' Hj. apply Hf. lia.
  Qed.
End ForLoops.

Section MpcOk.
  Context {T : Type} (O : Ops T) (LA : LinAlg T).
  Context (d : mpc_data T) (N nx nu nc : nat) (Hd : mpc_ok d N nx nu nc).

  Lemma seg_upd_len y s n f : length (seg_upd O y s n f) = length y.
  Proof. apply tab_length. Qed.
  Lemma acc2_len a s n p1 p2 y : length (acc2 O a s n p1 p2 y) = length y.
  Proof. unfold acc2. repeat destruct (o_eqb _ _ _); cbv zeta; rewrite ?seg_upd_len; reflexivity. Qed.
  Lemma acc1_len a s n p1 y : length (acc1 O a s n p1 y) = length y.
  Proof. unfold acc1. repeat destruct (o_eqb _ _ _); cbv zeta; rewrite ?seg_upd_len; reflexivity. Qed.
  Lemma acc_vec_len a s n w y : length (acc_vec O a s n w y) = length y.
  Proof. unfold acc_vec. rewrite ?seg_upd_len; reflexivity. Qed.
  Lemma prescale_len b y : length (prescale O b y) = length y.
  Proof. unfold prescale. repeat destruct (o_eqb _ _ _); cbn [negb]; autorewrite with vlen; reflexivity. Qed.
  Hint Rewrite seg_upd_len acc2_len acc1_len acc_vec_len prescale_len : vlen.

  (* resolve one stage access in the goal *)
  Ltac stage H :=
    let E := fresh "E" in let R := fresh "R" in let C := fresh "C" in
    match type of H with sok ?s ?n ?r ?c =>
      match goal with |- context [at_ s ?k] =>
        destruct (sok_stg s n r c k H) as (E & R & C); [lia|];
        rewrite E; cbn [rbind]
      end end.
  Ltac shapes := unfold shape;
    repeat match goal with H : mr ?M = _ |- context [mr ?M] => rewrite H end;
    repeat match goal with H : mc ?M = _ |- context [mc ?M] => rewrite H end;
    rewrite ?Nat.eqb_refl; cbn [andb ub_unless rbind].
  Ltac done := eexists; split; [reflexivity|]; autorewrite with vlen; try assumption.

  Lemma mpc_data_ok : DataOk (mpcDI O) d ((N + 1) * (nx + nu)) ((N + 1) * nx) ((N + 1) * nc).
  Proof.
    destruct Hd as [EN Ex Eu Ec Ez El Ev HQ HR HS Hq Hr HA HB Hc HE HL HD Hx0].
    constructor; intros; unfold rok; cbn [mpcDI di_gemvH di_gemvA di_gemvG di_gemvAT di_gemvGT di_axpyf di_axpyh di_axpyb];
      unfold mpc_gemvH, mpc_gemvA, mpc_gemvG, mpc_gemvGT, mpc_gemvAT, mpc_axpyf, mpc_axpyh, mpc_axpyb;
      rewrite ?EN, ?Ex, ?Eu, ?Ec; unfold size_chk, size_chk1;
      repeat match goal with H : length ?a = _ |- context [length ?a =? _] => rewrite H end;
      rewrite ?Ez, ?El, ?Ev, ?Hx0, ?Nat.eqb_refl; cbn [andb throw_unless ub_unless rbind].
    - apply for_from_ok; [autorewrite with vlen; assumption|]. intros j s Hj Hs.
      stage HQ. stage HS. stage HR. shapes. done.
    - apply for_from_ok; [autorewrite with vlen; assumption|]. intros j s Hj Hs.
      stage HE. stage HL. shapes. done.
    - apply for_from_ok; [autorewrite with vlen; assumption|]. intros j s Hj Hs.
      stage HA. stage HB. shapes. eexists. split; [reflexivity|].
      repeat destruct (o_eqb _ _ _); autorewrite with vlen; assumption.
    - apply for_from_ok; [autorewrite with vlen; assumption|]. intros j s Hj Hs.
      stage HE. stage HL. shapes. done.
    - match goal with |- context [for_n N ?f ?y] =>
        destruct (for_from_ok (fun s : vec T => length s = (N + 1) * (nx + nu)) f N 0 y) as (s' & E & K) end.
      + autorewrite with vlen; assumption.
      + intros j s Hj Hs. stage HA. stage HB. shapes. eexists. split; [reflexivity|].
        destruct (_ || _); autorewrite with vlen; assumption.
      + unfold for_n. rewrite E. cbn [rbind]. done.
    - apply for_from_ok; [autorewrite with vlen; assumption|]. intros j s Hj Hs.
      stage Hq. stage Hr. shapes. done.
    - apply for_from_ok; [autorewrite with vlen; assumption|]. intros j s Hj Hs.
      stage Hc. shapes. done.
    - apply for_from_ok; [autorewrite with vlen; assumption|]. intros j s Hj Hs.
      stage HD. shapes. done.
  Qed.
End MpcOk.
