(* C60: the text a Solve call prints on doubles: no line is cut off by the 100-byte buffer, and the columns
   of the tables line up. *)
From Coq Require Import ZArith String Ascii Lia List Floats.SpecFloat.
From Verif Require Export Text PropsDetail Shape Examples.
Local Open Scope string_scope.
Local Open Scope Z_scope.

(* ---------- specification ---------- *)
(* the integers an event carries are values of type int *)
Definition ints_ok (ev : event F64) : Prop :=
  match ev with
  | EvIterHeader | EvDetFooter _ _ => True
  | EvIterLine p n _ _ _ _ _ | EvDetHeader p n _ => in_int p = true /\ in_int n = true
  | EvDetLine i _ _ _ _ => in_int i = true
  | EvFinal _ _ p pm n nm _ _ _ _ => in_int p = true /\ in_int pm = true /\ in_int n = true /\ in_int nm = true
  end.
(* a number of milliseconds below 10^39 in absolute value (the age of the universe is below 10^21), or not a number *)
Definition sane_time (t : F64) : Prop :=
  match t with
  | S754_finite _ m e => Z.pos m * 2 ^ Z.max e 0 < 10 ^ 39 * 2 ^ Z.max (- e) 0
  | _ => True
  end.
Definition time_ok (ev : event F64) : Prop :=
  match ev with EvFinal _ ms _ _ _ _ _ _ _ _ => sane_time ms | _ => True end.

(* ---------- proofs ---------- *)
Notation len := String.length.
Lemma len_app s t : len (s +++ t) = (len s + len t)%nat.
Proof. induction s as [|a s IH]; [reflexivity|]. cbn [String.append String.length]. rewrite IH. reflexivity. Qed.
Lemma len_blanks n : len (blanks n) = n.
Proof. induction n as [|n IH]; [reflexivity|]. cbn [blanks String.length]. rewrite IH. reflexivity. Qed.
Lemma len_field w s : len (field w s) = Nat.max w (len s).
Proof. unfold field. rewrite len_app, len_blanks. lia. Qed.
Lemma len_low n : forall z, len (low_digits n z) = n.
Proof. induction n as [|n IH]; intro z; [reflexivity|]. cbn [low_digits]. rewrite len_app, IH. cbn. lia. Qed.
Lemma len_all fuel : forall n z, z < 10 ^ Z.of_nat n -> (1 <= n)%nat -> (len (all_digits fuel z) <= n)%nat.
Proof.
  induction fuel as [|f IH]; intros n z Hz Hn; cbn [all_digits]; [cbn; lia|].
  destruct (Z.ltb_spec z 10); [cbn; lia|]. rewrite len_app. cbn [String.length].
  destruct n as [|n]; [lia|]. destruct n as [|n]; [cbn in Hz; lia|].
  assert (len (all_digits f (z / 10)) <= S n)%nat; [|lia].
  apply IH; [|lia]. apply Z.div_lt_upper_bound; [lia|].
  replace (10 * 10 ^ Z.of_nat (S n)) with (10 ^ Z.of_nat (S (S n))); [exact Hz|].
  rewrite !Nat2Z.inj_succ, !Z.pow_succ_r by lia. lia.
Qed.
Lemma len_minus s : (len (minus s) <= 1)%nat.
Proof. destruct s; cbn; lia. Qed.
Lemma len_d z : in_int z = true -> (len (fmt_d z) <= 11)%nat.
Proof.
  intro H. apply andb_prop in H. destruct H as [H1 H2]. apply Z.leb_le in H1, H2. unfold int_min, int_max in *.
  unfold fmt_d. rewrite len_app. pose proof (len_minus (z <? 0)).
  assert (len (fmt_nat (Z.abs z)) <= 10)%nat; [|lia]. apply len_all; [|lia]. change (10 ^ Z.of_nat 10) with 10000000000. lia.
Qed.
Lemma len_exp k : (len (fmt_exp k) <= 5)%nat.
Proof.
  unfold fmt_exp. rewrite len_app. destruct (k <? 0), (Z.abs k <? 100); rewrite len_low; cbn; lia.
Qed.
Lemma len_e_pos p a b : (len (fmt_e_pos p a b) <= p + 7)%nat.
Proof.
  unfold fmt_e_pos. set (k := exp10 a b). set (d := if 0 <=? _ then _ else _).
  destruct (if d =? _ then _ else _) as [d' k']. rewrite !len_app, !len_low. pose proof (len_exp k'). cbn [String.length]. lia.
Qed.
Lemma len_e p x : (len (fmt_e p x) <= p + 8)%nat.
Proof.
  destruct x as [s|s| |s m e]; cbn [fmt_e]; rewrite ?len_app, ?len_low; try pose proof (len_minus s); cbn [String.length]; try lia.
  pose proof (len_e_pos p (frac_num m e) (frac_den e)). lia.
Qed.
Lemma round_le num den B : 0 <= num -> 0 < den -> num < B * den -> round_even num den <= B.
Proof.
  intros H0 H1 H2. unfold round_even.
  assert (num / den < B) by (apply Z.div_lt_upper_bound; lia).
  destruct (2 * (num mod den) <? den); [lia|]. destruct (den <? 2 * (num mod den)); [lia|]. destruct (Z.even _); lia.
Qed.
Lemma len_f x : sane_time x -> (len (fmt_f 6 x) <= 48)%nat.
Proof.
  destruct x as [s|s| |s m e]; cbn [fmt_f sane_time]; intro H; rewrite ?len_app, ?len_low; try pose proof (len_minus s); cbn [String.length]; try lia.
  set (d := round_even _ _).
  assert (HD : 0 < frac_den e) by (apply Z.pow_pos_nonneg; lia).
  assert (HN : 0 <= frac_num m e) by (unfold frac_num; apply Z.mul_nonneg_nonneg; [lia|apply Z.pow_nonneg; lia]).
  assert (d <= 10 ^ 39 * 10 ^ 6).
  { unfold d. change (Z.of_nat 6) with 6. apply round_le; [|exact HD|].
    - apply Z.mul_nonneg_nonneg; [exact HN|apply Z.pow_nonneg; lia].
    - replace (10 ^ 39 * 10 ^ 6 * frac_den e) with (10 ^ 39 * frac_den e * 10 ^ 6) by ring.
      apply Z.mul_lt_mono_pos_r; [apply Z.pow_pos_nonneg; lia|exact H]. }
  assert (len (fmt_nat (d / 10 ^ Z.of_nat 6)) <= 40)%nat; [|lia].
  apply len_all; [|lia]. change (Z.of_nat 6) with 6. apply Z.le_lt_trans with (10 ^ 39); [|reflexivity].
  apply Z.div_le_upper_bound; [reflexivity|]. rewrite Z.mul_comm. assumption.
Qed.

Lemma snprintf_short s : (len s <= 99)%nat -> snprintf100 s = s.
Proof.
  unfold snprintf100. generalize 99%nat. induction s as [|a s IH]; intros n H.
  - destruct n; reflexivity.
  - destruct n as [|n]; [cbn in H; lia|]. cbn [substring]. rewrite IH; [reflexivity|cbn in H; lia].
Qed.

(* ---------------------------------------------------------------- C60 *)
(* No line is truncated: what reaches the stream is what the format strings say. *)
Theorem C60_event_complete : forall ev, ints_ok ev -> time_ok ev -> out_lines ev = raw_lines ev.
Proof.
  intros ev HI HT.
  assert (K : Forall (fun s => (len s <= 99)%nat) (raw_lines ev)).
  { destruct ev as [|p n rz rl rv ri tol|p n r0|i t rz rl rv|ri tol|e ms p pm n nm rz rl rv tol]; cbn [raw_lines ints_ok time_ok] in *;
      repeat match goal with H : _ /\ _ |- _ => destruct H end;
      repeat match goal with H : in_int _ = true |- _ => apply len_d in H end;
      repeat match goal with |- Forall _ (_ :: _) => apply Forall_cons | |- Forall _ [] => apply Forall_nil end;
      rewrite ?len_app, ?len_field;
      repeat match goal with |- context[len (fmt_e ?p ?x)] => lazymatch goal with H : (len (fmt_e p x) <= _)%nat |- _ => fail | _ => pose proof (len_e p x) end end;
      try apply len_f in HT; try (destruct e; cbn [flag_text]); cbn [String.length sp2 newline]; lia. }
  unfold out_lines. induction K as [|s l Hs K IH]; [reflexivity|]. cbn [map]. rewrite IH, snprintf_short by exact Hs. reflexivity.
Qed.
(* The table printed at ITER: the heading and every line have exactly seven columns of twelve characters. *)
Theorem C60_iter_table : forall ev, ints_ok ev ->
  match ev with
  | EvIterHeader | EvIterLine _ _ _ _ _ _ _ => exists s, out_lines ev = [s] /\ len s = 97%nat
  | _ => True
  end.
Proof.
  intros ev HI. destruct ev as [|p n rz rl rv ri tol| | | |]; try exact I.
  - rewrite C60_event_complete by exact I. eexists. split; [reflexivity|]. reflexivity.
  - rewrite C60_event_complete by (try exact HI; exact I). eexists. split; [reflexivity|].
    rewrite !len_app, !len_field. destruct HI as [H1 H2]. apply len_d in H1, H2.
    pose proof (len_e 4 rz). pose proof (len_e 4 rl). pose proof (len_e 4 rv). pose proof (len_e 4 ri). pose proof (len_e 4 tol).
    cbn [String.length sp2 newline]. lia.
Qed.

(* The counters printed along a run. *)
Section Counters.
  Context (O : Ops F64) (o : params F64) (outer : var F64 -> rsd F64) (inner : var F64 -> var F64 -> rsd F64).
  (* the counters of an event are between 0 and the given numbers *)
  Definition counters (P N I : Z) (ev : event F64) : Prop :=
    match ev with
    | EvIterHeader | EvDetFooter _ _ => True
    | EvIterLine p n _ _ _ _ _ | EvDetHeader p n _ => 0 <= p <= P /\ 0 <= n <= N
    | EvDetLine i _ _ _ _ => 0 <= i <= I
    | EvFinal _ _ p _ n _ _ _ _ _ => 0 <= p <= P /\ 0 <= n <= N
    end.
  Notation steps tr := (Z.of_nat (count is_step tr)).
  Notation lins tr := (Z.of_nat (count is_lin tr)).
  Lemma counters_le P N I P' N' I' ev : P <= P' -> N <= N' -> I <= I' -> counters P N I ev -> counters P' N' I' ev.
  Proof. destruct ev; cbn; lia. Qed.
  Lemma shown_counters p n i t tol Ek c tr n' tol' l : shown O o outer inner p n i t tol Ek c tr n' tol' l ->
    0 <= p -> 0 <= n -> 0 <= i ->
    n' = n + lins tr /\
    forall I, i + steps tr <= I -> steps tr <= I -> Forall (counters (p + prox_steps tr) n' I) l.
  Proof.
    assert (CP : forall g tr, prox_steps (g :: tr) = (match g with GProx _ => 1 | _ => 0 end) + @prox_steps F64 tr).
    { intros g tr0. unfold prox_steps. rewrite count_cons. destruct g; lia. }
    assert (PP : forall tr, 0 <= @prox_steps F64 tr) by (intro; unfold prox_steps; lia).
    induction 1; intros Hp Hn Hi; rewrite ?count_cons, ?CP; cbn [is_lin is_step].
    - split; [cbn; lia|]. constructor.
    - destruct (IHshown Hp Hn ltac:(lia)) as [E F]. split; [lia|]. intros I HI HI'. specialize (F I ltac:(lia) ltac:(lia)). pose proof (PP tr) as HP.
      unfold iterate_lines, at_detailed, at_iter. apply Forall_app; split; [|apply Forall_app; split].
      + destruct (shows_details _); repeat constructor; lia.
      + destruct (shows_iterates _); repeat constructor; lia.
      + exact F.
    - destruct (IHshown Hp Hn Hi) as [E F]. split; [lia|]. intros I HI HI'. specialize (F I ltac:(lia) ltac:(lia)).
      unfold at_detailed. apply Forall_app; split; [|apply Forall_app; split].
      + destruct (shows_details _); repeat constructor; lia.
      + destruct (_ || _); [destruct (shows_details _)|]; repeat constructor.
      + exact F.
    - destruct (IHshown Hp ltac:(lia) Hi) as [E F]. split; [lia|]. intros I HI HI'. apply F; lia.
    - destruct (IHshown Hp Hn Hi) as [E F]. split; [lia|]. intros I HI HI'. apply F; lia.
    - destruct (IHshown Hp Hn ltac:(lia)) as [E F]. split; [lia|]. intros I HI HI'. apply F; lia.
    - destruct (IHshown Hp Hn Hi) as [E F]. split; [lia|]. intros I HI HI'. apply F; lia.
    - destruct (IHshown ltac:(lia) Hn Hi) as [E F]. split; [lia|]. intros I HI HI'. specialize (F I ltac:(lia) ltac:(lia)).
      eapply Forall_impl; [|exact F]. intros ev. apply counters_le; lia.
  Qed.
End Counters.

Section Call.
  Context (O : Ops F64) (LA : LinAlg F64).
  Hypothesis zero_eq : o_eqb O (o_zero O) (o_zero O) = true.
  Context {D : Type} {DI : DataI F64 D} {d : D} {nz nl nv : nat}
          {o : params F64} {x : var F64} {el : F64} {r : solve_result F64}.
  Hypothesis call : solve_call O LA D DI d nz nl nv o x el r.
  Hypothesis prox_int : in_int (p_max_prox o) = true.
  Hypothesis newton_int : in_int (p_max_newton o) = true.
  Hypothesis timing : sane_time (o_mul O (o_dec O 1000 0) el).

  Lemma call_events_ok : Forall (fun ev => ints_ok ev /\ time_ok ev) (sr_log r).
  Proof.
    pose proof (proj1 (andb_prop _ _ prox_int)) as P1. pose proof (proj2 (andb_prop _ _ prox_int)) as P2.
    pose proof (proj1 (andb_prop _ _ newton_int)) as N1. pose proof (proj2 (andb_prop _ _ newton_int)) as N2.
    apply Z.leb_le in P1, P2, N1, N2.
    pose proof (prox_steps_limit O LA zero_eq call) as LP.
    pose proof (C51_newton_steps O LA zero_eq call) as (NS & _).
    pose proof (C06_iteration_limits O LA zero_eq call) as LIM.
    assert (INT : forall z, 0 <= z <= int_max -> in_int z = true).
    { intros z Hz. apply andb_true_intro. unfold int_min in *. split; apply Z.leb_le; lia. }
    destruct (C16_printed_lines O LA zero_eq call) as [(E & _)|(ou & inn & tol0 & n & last & lines & tail & _ & _ & E & SH & CL & _)].
    { rewrite E. constructor. }
    destruct (shown_counters _ _ _ _ _ _ _ _ _ _ _ _ _ _ _ (SH x) ltac:(lia) ltac:(lia) ltac:(lia)) as [EN F].
    assert (LN : 0 <= n <= int_max).
    { rewrite EN. destruct (sr_out r) as [out|e|u]; [|lia|contradiction]. destruct LIM as (A & _ & B & _). lia. }
    specialize (F n ltac:(lia) ltac:(lia)). rewrite E. apply Forall_app; split; [|apply Forall_app; split].
    - unfold at_iter. destruct (shows_iterates _); repeat constructor.
    - rewrite Forall_forall in F |- *. intros ev Hev.
      assert (time_ok ev /\ counters (0 + prox_steps (sr_trace r)) n n ev /\ match ev with EvFinal _ _ _ _ _ _ _ _ _ _ => False | _ => True end) as (T1 & C1 & C2).
      { assert (NF : forall ev, In ev lines -> match ev with EvFinal _ _ _ _ _ _ _ _ _ _ => False | _ => True end).
        { pose proof (SH x) as S0. clear - S0. revert S0. generalize (0 : Z) at 3. induction 1; intros ev' HI; try contradiction; try (eapply IHS0; eassumption).
          - apply in_app_or in HI. destruct HI as [HI|HI].
            { unfold at_detailed in HI. destruct (shows_details _); [destruct HI as [<-|[]]; exact I|contradiction]. }
            apply in_app_or in HI. destruct HI as [HI|HI]; [|eapply IHS0; exact HI].
            unfold iterate_lines, at_iter in HI. destruct (shows_iterates _); [destruct HI as [<-|[]]; exact I|contradiction].
          - apply in_app_or in HI. destruct HI as [HI|HI].
            { unfold at_detailed in HI. destruct (shows_details _); [destruct HI as [<-|[]]; exact I|contradiction]. }
            apply in_app_or in HI. destruct HI as [HI|HI]; [|eapply IHS0; exact HI].
            unfold at_detailed in HI. destruct (_ || _); [|contradiction]. destruct (shows_details _); [destruct HI as [<-|[]]; exact I|contradiction]. }
        specialize (NF ev Hev). split; [destruct ev; try contradiction; exact I|]. split; [apply F; exact Hev|exact NF]. }
      split; [|exact T1]. destruct ev; cbn [ints_ok counters] in *; try exact I; try contradiction; try split; apply INT; lia.
    - destruct (sr_out r) as [out|e|u]; cbn [closing] in CL; [|destruct CL as [->|(c & ri & ->)]..].
      + destruct CL as (_ & rk & ri & _ & _ & ->). destruct LIM as (A & B & _).
        apply Forall_app; split.
        * destruct (so_eflag out); try constructor. unfold iterate_lines, at_iter. destruct (shows_iterates _); repeat constructor; apply INT; lia.
        * destruct (shows_summary _); repeat constructor; try exact timing; try assumption; apply INT; lia.
      + constructor.
      + unfold at_detailed, iterate_lines, at_iter. apply Forall_app; split; [destruct (shows_details _)|destruct (shows_iterates _)]; repeat constructor; apply INT; lia.
      + constructor.
      + unfold at_detailed, iterate_lines, at_iter. apply Forall_app; split; [destruct (shows_details _)|destruct (shows_iterates _)]; repeat constructor; apply INT; lia.
  Qed.
  (* Everything a Solve call prints reaches the stream complete, if the limits are values of type int. *)
  Theorem C60_text_complete : out_text (sr_log r) = String.concat "" (flat_map raw_lines (sr_log r)).
  Proof.
    unfold out_text. f_equal. induction call_events_ok as [|ev l [H1 H2] F IH]; [reflexivity|].
    cbn [flat_map]. rewrite IH, C60_event_complete by assumption. reflexivity.
  Qed.
  (* ...and the table printed at ITER lines up. *)
  Theorem C60_table_aligned : forall ev, In ev (sr_log r) ->
    match ev with
    | EvIterHeader | EvIterLine _ _ _ _ _ _ _ => exists s, out_lines ev = [s] /\ String.length s = 97%nat
    | _ => True
    end.
  Proof.
    intros ev H. apply C60_iter_table. pose proof call_events_ok as F. rewrite Forall_forall in F. apply F. exact H.
  Qed.
End Call.
Print Assumptions C60_text_complete.
Print Assumptions C60_table_aligned.

(* non-vacuity: a call that meets the hypotheses, and everything it prints at ITER *)
Example C60_witness : exists d o' r,
  solve_call Fops LAF (dense_data F64) (denseDI Fops) d 2 0 2 o' (fx_ [0;0] [] [0;0] []) (Fdec 12 (-5)) r /\
  in_int (p_max_prox o') = true /\ in_int (p_max_newton o') = true /\
  sane_time (o_mul Fops (o_dec Fops 1000 0) (Fdec 12 (-5))) /\
  out_text (sr_log r) =
"   prox iter  newton iters          |rz|          |rl|          |rv|     Inner res     Inner tol
           0             0    1.1180e+01    0.0000e+00    0.0000e+00    0.0000e+00    1.0000e-02
           1             4    3.7469e-04    0.0000e+00    3.5598e-04    5.0337e-04    2.0000e-03
           2             5    1.0603e-11    0.0000e+00    1.3344e-08    1.3340e-08    4.0000e-04

Optimization completed!  Exit code: Success
Time elapsed: 0.120000 ms (-1.0 indicates timing disabled)
Proximal iterations: 2 out of 30
Newton iterations: 5 out of 200
      |rz|        |rl|        |rv|   Tolerance
1.0603e-11  0.0000e+00  1.3344e-08  1.0000e-06

".
Proof.
  eapply (dcall_ok Fops LAF g0 2 0 2 (with_display dflt ITER) qp_ok Owned _ (Fdec 12 (-5))
    (fun _ o' r => in_int (p_max_prox o') = true /\ in_int (p_max_newton o') = true /\ _ /\ out_text (sr_log r) = _)).
  - exact I.
  - vm_compute. repeat split.
Qed.
