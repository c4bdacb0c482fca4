(* C66, message by message: the caller's stream may throw at any single Print call, also between
   two messages of the same table header or closing summary. *)
From Verif Require Import PropsStream Text.
From Coq Require Import String List.
Import ListNotations.
Local Open Scope list_scope.

(* ---------- specification ---------- *)
Section Spec.
  (* t (p ++ [m]): having taken the messages p, the stream returns normally from Print(m) *)
  Context (t : list string -> bool).
  (* every message of l, printed in this order, is taken *)
  Definition takes_messages (l : list string) : Prop :=
    forall p m q, l = p ++ m :: q -> t (p ++ [m]) = true.
  (* Print called on the messages l one after the other, after those of p (tools/output_stream.h:22-24,
     impl.h:425, 439, 454-457, 470, 487, 499-539): did all of them return? *)
  Fixpoint print_all (p l : list string) : bool :=
    match l with [] => true | m :: l => t (p ++ [m]) && print_all (p ++ [m]) l end.
  (* the same stream, asked about the last of a list of events *)
  Definition stream_of_messages (l : list (event F64)) : bool :=
    match rev l with
    | [] => true
    | e :: r => print_all (flat_map out_lines (rev r)) (out_lines e)
    end.
End Spec.

(* what a call prints, message by message *)
Definition messages (l : list (event F64)) : list string := flat_map out_lines l.

(* r' with the stream t, r with a stream that never throws.  If m is the first message refused,
   p those before it: the exception reaches the caller; m belongs to the event e (one of the six
   Print routines), whose earlier messages are a; the caller's variables are as before unless e is
   the summary of a call that ran out of Newton steps. *)
Record with_messages (t : list string -> bool) (x : var F64) (limit : Z) (r r' : solve_result F64) : Prop := {
  wg_same : takes_messages t (messages (sr_log r)) -> r' = r;
  wg_cut : forall p m q, messages (sr_log r) = p ++ m :: q -> takes_messages t p -> t (p ++ [m]) = false ->
    sr_out r' = Throw EStream /\
    exists e rest a b, sr_log r = sr_log r' ++ e :: rest /\
      out_lines e = a ++ m :: b /\ p = messages (sr_log r') ++ a /\ q = b ++ messages rest /\
      sr_x r' = (if newton_summary e then sr_x r else x) /\
      (newton_summary e = true -> rest = [] /\ exists out,
         sr_out r = Ok out /\ so_eflag out = MAXITERATIONS /\ (limit <= so_newton out)%Z) }.

Record with_messages_mem (t : list string -> bool) (m0 : memory F64) (r r' : mem_result F64) : Prop := {
  wgm_same : takes_messages t (messages (me_log r)) -> r' = r;
  wgm_cut : forall p m q, messages (me_log r) = p ++ m :: q -> takes_messages t p -> t (p ++ [m]) = false ->
    me_out r' = Throw EStream /\
    exists e rest a b, me_log r = me_log r' ++ e :: rest /\
      out_lines e = a ++ m :: b /\ p = messages (me_log r') ++ a /\ q = b ++ messages rest /\
      forall i, me_mem r' i = (if newton_summary e then me_mem r i else m0 i) }.

(* ---------- proofs ---------- *)
Section Facts.
  Context (t : list string -> bool).
  Notation acc := (stream_of_messages t).

  Lemma stream_snoc p e : acc (p ++ [e]) = print_all t (messages p) (out_lines e).
  Proof. unfold stream_of_messages. rewrite rev_app_distr. cbn [rev app]. rewrite rev_involutive. reflexivity. Qed.

  Lemma print_all_true l : forall p,
    print_all t p l = true <-> (forall a m b, l = a ++ m :: b -> t (p ++ a ++ [m]) = true).
  Proof.
    induction l as [|m l IH]; intros p; cbn [print_all].
    - split; [intros _ a m b E; destruct a; discriminate E|reflexivity].
    - rewrite andb_true_iff, IH. split.
      + intros [E H] a m' b EL. destruct a as [|a0 a]; injection EL as -> ->; [exact E|].
        specialize (H a m' b eq_refl). rewrite <- app_assoc in H. exact H.
      + intros H. split; [apply (H [] m l eq_refl)|]. intros a m' b ->.
        rewrite <- app_assoc. apply (H (m :: a) m' b eq_refl).
  Qed.

  Lemma print_all_false p a m b : (forall a1 m1 b1, a = a1 ++ m1 :: b1 -> t (p ++ a1 ++ [m1]) = true) ->
    t (p ++ a ++ [m]) = false -> print_all t p (a ++ m :: b) = false.
  Proof.
    intros H E. destruct (print_all t p (a ++ m :: b)) eqn:P; [|reflexivity].
    rewrite print_all_true in P. rewrite (P a m b eq_refl) in E. discriminate E.
  Qed.

  Lemma takes_messages_app a b : takes_messages t (a ++ b) -> takes_messages t a.
  Proof.
    intros H p m q ->. apply (H p m (q ++ b)). rewrite <- app_assoc. reflexivity.
  Qed.

  Lemma takes_events l : takes_messages t (messages l) -> takes acc l.
  Proof.
    intros H p e q ->. rewrite stream_snoc. apply print_all_true. intros a m b E.
    rewrite app_assoc. apply (H (messages p ++ a) m (b ++ messages q)).
    unfold messages. rewrite flat_map_app. cbn [flat_map]. rewrite E, <- !app_assoc. reflexivity.
  Qed.

  (* the event a message belongs to *)
  Lemma split_messages l : forall p m q, messages l = p ++ m :: q ->
    exists l1 e l2 a b, l = l1 ++ e :: l2 /\ out_lines e = a ++ m :: b /\
      p = messages l1 ++ a /\ q = b ++ messages l2.
  Proof.
    induction l as [|e l IH]; intros p m q E.
    - destruct p; discriminate E.
    - change (messages (e :: l)) with (out_lines e ++ messages l) in E.
      apply app_eq_app in E. destruct E as [c [[E1 E2]|[E1 E2]]].
      + destruct c as [|c0 c].
        * cbn [app] in E2. rewrite app_nil_r in E1.
          destruct (IH [] m q (eq_sym E2)) as (l1 & e' & l2 & a & b & -> & Eo & Ep & Eq).
          exists (e :: l1), e', l2, a, b. repeat split; try assumption.
          change (messages (e :: l1)) with (out_lines e ++ messages l1).
          rewrite <- app_assoc, <- Ep, app_nil_r. symmetry; exact E1.
        * injection E2 as <- ->. exists [], e, l, p, c. repeat split; assumption.
      + destruct (IH c m q E2) as (l1 & e' & l2 & a & b & -> & Eo & Ep & Eq).
        exists (e :: l1), e', l2, a, b. repeat split; try assumption.
        change (messages (e :: l1)) with (out_lines e ++ messages l1).
        rewrite E1, Ep, app_assoc. reflexivity.
  Qed.

  Lemma cut_event l p m q : messages l = p ++ m :: q -> takes_messages t p -> t (p ++ [m]) = false ->
    exists l1 e l2 a b, l = l1 ++ e :: l2 /\ takes acc l1 /\ acc (l1 ++ [e]) = false /\
      out_lines e = a ++ m :: b /\ p = messages l1 ++ a /\ q = b ++ messages l2.
  Proof.
    intros E Tk F. destruct (split_messages _ _ _ _ E) as (l1 & e & l2 & a & b & El & Eo & Ep & Eq).
    exists l1, e, l2, a, b. subst p.
    split; [exact El|]. split; [apply takes_events; eapply takes_messages_app; exact Tk|].
    split; [|auto]. rewrite stream_snoc, Eo. apply print_all_false.
    - intros a1 m1 b1 ->. rewrite app_assoc. apply (Tk (messages l1 ++ a1) m1 b1).
      rewrite <- app_assoc. reflexivity.
    - rewrite app_assoc. exact F.
  Qed.

  Lemma messages_of x limit r r' : with_stream acc x limit r r' -> with_messages t x limit r r'.
  Proof.
    intros [Hs Hc]. constructor.
    - intro Tk. apply Hs, takes_events, Tk.
    - intros p m q E Tk F.
      destruct (cut_event _ _ _ _ E Tk F) as (l1 & e & l2 & a & b & El & T1 & Fe & Eo & Ep & Eq).
      destruct (Hc l1 e l2 El T1 Fe) as (A & B & C & Dd). split; [exact A|].
      exists e, l2, a, b. rewrite B. repeat (split; [assumption|]). assumption.
  Qed.

  Lemma messages_mem_of m0 r r' : with_stream_mem acc m0 r r' -> with_messages_mem t m0 r r'.
  Proof.
    intros [Hs Hc]. constructor.
    - intro Tk. apply Hs, takes_events, Tk.
    - intros p m q E Tk F.
      destruct (cut_event _ _ _ _ E Tk F) as (l1 & e & l2 & a & b & El & T1 & Fe & Eo & Ep & Eq).
      destruct (Hc l1 e l2 El T1 Fe) as (A & B & C). split; [exact A|].
      exists e, l2, a, b. rewrite B. repeat (split; [assumption|]). assumption.
  Qed.
End Facts.

Section Props.
  Context (LA : LinAlg F64).

  Theorem C66_dense_messages : forall t nz nl nv s qp k x el,
    dense_reach Fops LA nz nl nv s -> y_fits k x (Z.to_nat nv) ->
    let c := FBstabDense_SolveOn Fops LA (stream_of_messages t) s qp k x el in
    with_messages t x (p_max_newton (ds_options s)) (snd (FBstabDense_Solve Fops LA s qp k x el)) (snd c) /\
    dense_reach Fops LA nz nl nv (fst c) /\ ds_options (fst c) = ds_options s.
  Proof.
    intros t nz nl nv s qp k x el Hr Hy. cbv zeta.
    destruct (C66_dense_stream Fops LA eq_refl (stream_of_messages t) nz nl nv s qp k x el Hr Hy) as [A B].
    split; [apply messages_of; exact A|exact B].
  Qed.

  Theorem C66_mpc_messages : forall t N nx nu nc s qp k x el,
    mpc_reach Fops LA N nx nu nc s -> seqs_valid qp -> single_columns qp -> mpc_fits qp ->
    let c := FBstabMpc_SolveOn Fops LA (stream_of_messages t) s qp k x el in
    with_messages t x (p_max_newton (mps_options s)) (snd (FBstabMpc_Solve Fops LA s qp k x el)) (snd c) /\
    mpc_reach Fops LA N nx nu nc (fst c) /\ mps_options (fst c) = mps_options s.
  Proof.
    intros t N nx nu nc s qp k x el Hr Hs Hc Hf. cbv zeta.
    destruct (C66_mpc_stream Fops LA eq_refl (stream_of_messages t) N nx nu nc s qp k x el Hr Hs Hc Hf) as [A B].
    split; [apply messages_of; exact A|exact B].
  Qed.

  (* the same on caller memory, in which the data and the variables may overlap *)
  Theorem C66_dense_messages_memory : forall t nz nl nv s m q w el,
    dense_reach Fops LA nz nl nv s -> sp_len (vv_y w) = Z.to_nat nv ->
    let c := FBstabDense_SolveRefOn Fops LA (stream_of_messages t) s m q w el in
    with_messages_mem t m (snd (FBstabDense_SolveRef Fops LA s m q w el)) (snd c) /\
    dense_reach Fops LA nz nl nv (fst c) /\ ds_options (fst c) = ds_options s.
  Proof.
    intros t nz nl nv s m q w el Hr Hy. cbv zeta.
    destruct (C66_dense_stream_memory Fops LA (stream_of_messages t) nz nl nv s m q w el Hr Hy) as [A B].
    split; [apply messages_mem_of; exact A|exact B].
  Qed.

  Theorem C66_mpc_messages_memory : forall t N nx nu nc s m q w el,
    mpc_reach Fops LA N nx nu nc s -> seqs_valid (load_mpc m q) -> single_columns (load_mpc m q) ->
    let c := FBstabMpc_SolveRefOn Fops LA (stream_of_messages t) s m q w el in
    with_messages_mem t m (snd (FBstabMpc_SolveRef Fops LA s m q w el)) (snd c) /\
    mpc_reach Fops LA N nx nu nc (fst c) /\ mps_options (fst c) = mps_options s.
  Proof.
    intros t N nx nu nc s m q w el Hr Hs Hc. cbv zeta.
    destruct (C66_mpc_stream_memory Fops LA eq_refl (stream_of_messages t) N nx nu nc s m q w el Hr Hs Hc) as [A B].
    split; [apply messages_mem_of; exact A|exact B].
  Qed.
End Props.
