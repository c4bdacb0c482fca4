(* What a caller's output stream accepts of a sequence of messages (specification only). *)
From Verif Require Export Algorithm.

Section StreamSpec.
  Context {T : Type} (accepts : list (event T) -> bool).

  (* the first of the messages l that is refused, those of pre having been accepted before *)
  Fixpoint refused (pre l : list (event T)) : option (event T) :=
    match l with
    | [] => None
    | e :: l' => if accepts (pre ++ [e]) then refused (pre ++ [e]) l' else Some e
    end.

  (* the messages accepted before that *)
  Fixpoint upto (pre l : list (event T)) : list (event T) :=
    match l with
    | [] => []
    | e :: l' => if accepts (pre ++ [e]) then e :: upto (pre ++ [e]) l' else []
    end.

  Lemma refused_app a : forall pre b, refused pre (a ++ b) =
    match refused pre a with None => refused (pre ++ a) b | Some e => Some e end.
  Proof.
    induction a as [|e a IH]; intros pre b; cbn [refused app].
    - rewrite app_nil_r. reflexivity.
    - destruct (accepts _); [|reflexivity]. rewrite IH, <- app_assoc. reflexivity.
  Qed.

  Lemma upto_app a : forall pre b, upto pre (a ++ b) =
    match refused pre a with None => a ++ upto (pre ++ a) b | Some _ => upto pre a end.
  Proof.
    induction a as [|e a IH]; intros pre b; cbn [refused upto app].
    - rewrite app_nil_r. reflexivity.
    - destruct (accepts _); [|reflexivity]. rewrite IH, <- app_assoc.
      destruct (refused (pre ++ [e]) a); reflexivity.
  Qed.

  Lemma upto_all l : forall pre, refused pre l = None -> upto pre l = l.
  Proof.
    induction l as [|e l IH]; intros pre; cbn [refused upto]; [reflexivity|].
    destruct (accepts _); [|discriminate]. intro H. rewrite IH; auto.
  Qed.

  (* the meaning of the two functions *)
  Lemma refused_none l : forall pre, refused pre l = None <->
    (forall a e b, l = a ++ e :: b -> accepts (pre ++ a ++ [e]) = true).
  Proof.
    induction l as [|x l IH]; intros pre; cbn [refused].
    - split; [|reflexivity]. intros _ a e b H. destruct a; discriminate.
    - destruct (accepts (pre ++ [x])) eqn:E.
      + rewrite IH. split; intros H a e b.
        * destruct a as [|y a]; cbn [app]; [intros [= <- <-]; exact E|].
          intros [= <- Hl]. specialize (H a e b Hl). rewrite <- app_assoc in H. exact H.
        * intros ->. specialize (H (x :: a) e b eq_refl). rewrite <- app_assoc. exact H.
      + split; [discriminate|]. intro H. specialize (H [] x l eq_refl). cbn [app] in H. congruence.
  Qed.

  Lemma refused_some l : forall pre r, refused pre l = Some r <->
    (exists b, l = upto pre l ++ r :: b /\ accepts (pre ++ upto pre l ++ [r]) = false /\
      forall a e c, upto pre l = a ++ e :: c -> accepts (pre ++ a ++ [e]) = true).
  Proof.
    induction l as [|x l IH]; intros pre r; cbn [refused upto].
    - split; [discriminate|]. intros (b & H & _). discriminate.
    - destruct (accepts (pre ++ [x])) eqn:E.
      + rewrite IH. split.
        * intros (b & H1 & H2 & H3). exists b. cbn [app]. rewrite <- H1. split; [reflexivity|].
          rewrite <- app_assoc in H2. split; [exact H2|].
          intros a e c. destruct a as [|y a]; cbn [app]; [intros [= <- _]; exact E|].
          intros [= <- H]. specialize (H3 a e c H). rewrite <- app_assoc in H3. exact H3.
        * intros (b & H1 & H2 & H3). cbn [app] in H1. injection H1 as H1. exists b.
          rewrite <- !app_assoc. split; [exact H1|]. split; [exact H2|].
          intros a e c H. rewrite <- app_assoc. apply (H3 (x :: a) e c). cbn [app]. rewrite H. reflexivity.
      + cbn [app]. split.
        * intros [= ->]. exists l. split; [reflexivity|]. split; [exact E|].
          intros a e c H. destruct a; discriminate.
        * intros (b & [= ->] & _). reflexivity.
  Qed.
End StreamSpec.

(* the closing summary of a Solve that stopped at its Newton-step limit *)
Definition newton_summary {T} (e : event T) : bool :=
  match e with
  | EvFinal MAXITERATIONS _ _ _ newton max_newton _ _ _ _ => (max_newton <=? newton)%Z
  | _ => false
  end.
