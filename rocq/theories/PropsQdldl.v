(* C71: what a program gets from QdldlWrapper, for every size, pattern, matrix and sequence of
   calls, given that the QDLDL library keeps the promises of QdldlSpec.v. *)
From Verif Require Export QdldlSpec QdldlInst.
Local Open Scope Z_scope.

(* A has the pattern the object was constructed for *)
Definition has_pattern {T} (n : nat) (Ap Ai : list Z) (A : sparse T) : Prop :=
  sm_outer A = Ap /\ sm_inner A = Ai /\ ig Ap n <= len (sm_values A).
(* the calls a careful program makes *)
Definition good_call {T} (n : nat) (Ap Ai : list Z) (c : qcall T) : Prop :=
  match c with
  | QFactor A => has_pattern n Ap Ai A
  | QSolve None => False
  | QSolve (Some x) => (n <= length x)%nat
  end.
(* the vectors it passes to Solve, in order *)
Fixpoint solve_inputs {T} (cs : list (qcall T)) : list (list T) :=
  match cs with
  | [] => []
  | QSolve (Some x) :: cs' => x :: solve_inputs cs'
  | _ :: cs' => solve_inputs cs'
  end.
(* the int QDLDL_factor returns, which Factor drops: negative if a pivot is zero *)
Definition factor_result {T} (Q : Qdldl T) (w : wrapper T) (A : sparse T) : Z :=
  fst (fst (fst (fst (fst (fst (fst (fst
    (q_factor Q (Z.to_nat (w_n w)) (sm_outer A) (sm_inner A) (sm_values A) (w_Lp w) (w_Li w) (w_Lx w)
       (w_D w) (w_Dinv w) (w_Lnz w) (w_etree w) (w_bwork w) (w_iwork w) (w_fwork w))))))))).
Definition solve_each {T} (xs : list (list T)) : list (qcall T) := map (fun x => QSolve (Some x)) xs.
(* x solve_each K x = b *)
Definition solution (n : nat) (K : nat -> nat -> R) (b x : list R) : Prop :=
  forall i, (i < n)%nat -> rsum n (fun j => K i j * rg x j)%R = rg b i.

Section Any.
  Context {T : Type} (O : Ops T) (Q : Qdldl T) (QK : QdldlOk Q).

  (* the object between calls; Lnz and etree never change *)
  Record ready (n : nat) (Ap Ai Lnz etree : list Z) (w : wrapper T) : Prop := {
    rd_n : w_n w = Z.of_nat n;
    rd_Lnz : w_Lnz w = Lnz; rd_etree : w_etree w = etree;
    rd_pat : pattern_mem n Ap Ai = true;
    rd_len1 : length Lnz = n; rd_len2 : length etree = n;
    rd_Lp : length (w_Lp w) = (n + 1)%nat;
    rd_Li : len (w_Li w) = zsum Lnz; rd_Lx : len (w_Lx w) = zsum Lnz;
    rd_D : length (w_D w) = n; rd_Dinv : length (w_Dinv w) = n;
    rd_bwork : length (w_bwork w) = n; rd_iwork : length (w_iwork w) = (3 * n)%nat;
    rd_fwork : length (w_fwork w) = n;
    rd_analysed : forall work, (n <= length work)%nat -> analysed Q n Ap Ai work Lnz etree = true;
    rd_ccs : ccs_mem n (w_Lp w) (w_Li w) = true }.

  Lemma resize_ok {A} (z : A) k : 0 <= k -> resize z [] k = Ok (repeat z (Z.to_nat k)).
  Proof.
    intro H. unfold resize. destruct (Z.ltb_spec k 0); [lia|]. rewrite firstn_nil. cbn [app length].
    rewrite Nat.sub_0_r. reflexivity.
  Qed.
  Lemma resize_neg {A} (z : A) k : k < 0 -> resize z [] k = Throw ELength.
  Proof. intro H. unfold resize. destruct (Z.ltb_spec k 0); [reflexivity|lia]. Qed.

  Lemma sum_bound : forall l s, (forall i, (i < length l)%nat -> 0 <= nth i l 0 <= s - Z.of_nat i) ->
    0 <= zsum l /\ 2 * zsum l <= Z.of_nat (length l) * (2 * s + 1 - Z.of_nat (length l)).
  Proof.
    unfold zsum. induction l as [|a l IH]; intros s H; cbn [fold_right length]; [lia|].
    destruct (IH (s - 1)) as [I1 I2].
    { intros i Hi. specialize (H (S i)). cbn [nth length] in H. specialize (H ltac:(lia)). lia. }
    specialize (H 0%nat ltac:(cbn; lia)). cbn [nth] in H. split; [lia|]. rewrite Nat2Z.inj_succ. nia.
  Qed.

  (* what the constructor does once the first allocations are through *)
  Lemma create_form n Ap Ai : 0 <= n -> in_int (3 * n) = true -> pattern_mem (Z.to_nat n) Ap Ai = true ->
    let k := Z.to_nat n in
    let '(r, iwork, Lnz, etree) := q_etree Q k Ap Ai (repeat 0 (3 * k)) (repeat 0 k) (repeat 0 k) in
    length iwork = (3 * k)%nat /\ length Lnz = k /\ length etree = k /\
    (~ upper_pattern k Ap Ai -> r = -1) /\
    (upper_pattern k Ap Ai -> 0 <= zsum Lnz /\ (n <= 65536 -> zsum Lnz <= int_max) /\
       r = if zsum Lnz <=? int_max then zsum Lnz else -2) /\
    QdldlWrapper_new O Q n (Some Ap) (Some Ai) =
      if r <? 0 then Throw ELength
      else Ok (mkWrapper r n etree Lnz (repeat 0 (Z.to_nat r)) (repeat 0 (k + 1)) (repeat (o_zero O) (Z.to_nat r))
             (repeat (o_zero O) k) (repeat (o_zero O) k) iwork (repeat (o_zero O) k) (repeat 0 k)).
  Proof.
    intros Hn H3 PM k.
    assert (EM : etree_mem k Ap Ai (repeat 0 (3 * k)) (repeat 0 k) (repeat 0 k) = true).
    { apply etree_mem_intro; [exact PM|..]; rewrite repeat_length; lia. }
    assert (C := qk_etree Q QK _ _ _ _ _ _ EM).
    destruct (q_etree Q k Ap Ai _ _ _) as [[[r iwork] Lnz] etree] eqn:E.
    destruct C as (C1 & C2 & C3 & C4 & C5). rewrite repeat_length in C1, C2, C3.
    split; [exact C1|]. split; [exact C2|]. split; [exact C3|]. split; [exact C4|].
    assert (F : firstn k Lnz = Lnz) by (apply firstn_all2; lia).
    split.
    - intro U. destruct (C5 U) as [C6 C7]. rewrite F in C7.
      destruct (sum_bound Lnz (Z.of_nat k - 1)) as [B1 B2].
      { rewrite C2. exact C6. }
      split; [exact B1|]. split; [|exact C7]. intro Hs. rewrite C2 in B2. unfold int_max. nia.
    - unfold QdldlWrapper_new, imul. rewrite H3. cbn [rbind]. rewrite !resize_ok by lia. cbn [rbind].
      replace (Z.to_nat (3 * n)) with (3 * k)%nat by (unfold k; lia). fold k. rewrite EM. cbn [ub_unless rbind fst snd].
      rewrite E. unfold iadd.
      assert (I1 : in_int (n + 1) = true) by (unfold in_int, int_min, int_max in *; lia).
      rewrite I1. cbn [rbind]. rewrite !(resize_ok _ (n + 1)) by lia. cbn [rbind].
      destruct (Z.ltb_spec r 0).
      + rewrite resize_neg by assumption. reflexivity.
      + rewrite !(resize_ok _ r) by assumption. cbn [rbind]. rewrite ?resize_ok by lia. cbn [rbind]. fold k.
        replace (Z.to_nat (n + 1)) with (k + 1)%nat by (unfold k; lia). reflexivity.
  Qed.

  Lemma repeat_zero_ig k i : ig (repeat 0 k) i = 0.
  Proof. unfold ig. apply nth_repeat. Qed.

  Lemma create_ready n Ap Ai w : QdldlWrapper_new O Q n (Some Ap) (Some Ai) = Ok w ->
    0 <= n /\ upper_pattern (Z.to_nat n) Ap Ai /\
    exists Lnz etree, (1 <= n -> ready (Z.to_nat n) Ap Ai Lnz etree w) /\
      (forall i, ig (w_Lp w) i = 0) /\ (forall i, vget O (w_Dinv w) i = o_zero O).
  Proof.
    intro H.
    assert (P0 : 0 <= n /\ in_int (3 * n) = true /\ pattern_mem (Z.to_nat n) Ap Ai = true).
    { unfold QdldlWrapper_new, imul in H. destruct (in_int (3 * n)) eqn:I; [|discriminate]. cbn [rbind] in H.
      destruct (Z.ltb_spec n 0) as [Neg|Pos].
      - rewrite (resize_neg 0 (3 * n)) in H by lia. discriminate.
      - rewrite !resize_ok in H by lia. cbn [rbind] in H. split; [exact Pos|]. split; [reflexivity|].
        destruct (etree_mem _ Ap Ai _ _ _) eqn:EM; [|discriminate].
        apply etree_mem_inv in EM. apply EM. }
    destruct P0 as (Hn & H3 & PM). assert (C := create_form n Ap Ai Hn H3 PM). cbv zeta in C.
    set (k := Z.to_nat n) in *.
    destruct (q_etree Q k Ap Ai _ _ _) as [[[r iwork] Lnz] etree] eqn:E.
    destruct C as (C1 & C2 & C3 & C4 & C5 & C6). rewrite C6 in H. destruct (Z.ltb_spec r 0) as [|Hr]; [discriminate|].
    injection H as <-. split; [exact Hn|].
    assert (U : upper_pattern k Ap Ai).
    { destruct (upperb k Ap Ai) eqn:U; [apply upperb_ok; exact U|]. rewrite C4 in Hr; [lia|].
      intro U2. apply upperb_ok in U2. congruence. }
    split; [exact U|]. destruct (C5 U) as (B1 & B2 & B3).
    assert (Er : r = zsum Lnz) by (destruct (zsum Lnz <=? int_max); lia).
    exists Lnz, etree. split.
    - intro H1. constructor; cbn [w_n w_Lnz w_etree w_Lp w_Li w_Lx w_D w_Dinv w_bwork w_iwork w_fwork];
        unfold len; rewrite ?repeat_length; try assumption; try reflexivity; try lia.
      + intros work Hw. unfold analysed.
        assert (F := qk_etree_fresh Q QK k Ap Ai (repeat 0 (3 * k)) work (repeat 0 k) Lnz (repeat 0 k) etree).
        rewrite E in F. destruct (q_etree Q k Ap Ai work Lnz etree) as [[[r2 w2] L2] e2].
        destruct F as [F1 F2]; rewrite ?repeat_length; try lia.
        1,2: apply etree_mem_intro; rewrite ?repeat_length; try assumption; lia.
        destruct (F2 Hr) as [<- <-]. rewrite !Bool.andb_true_iff. repeat split; try lia; apply same_ints_ok; reflexivity.
      + apply ccs_mem_intro.
        * rewrite repeat_length. lia.
        * apply repeat_zero_ig.
        * intros j _. rewrite !repeat_zero_ig. lia.
        * rewrite repeat_zero_ig. unfold len. lia.
        * intros i Hi. apply repeat_spec in Hi. lia.
    - split; intro i.
      + apply repeat_zero_ig.
      + unfold vget. apply nth_repeat.
  Qed.

  Lemma ready_mem n Ap Ai Lnz etree w A : (1 <= n)%nat -> ready n Ap Ai Lnz etree w -> has_pattern n Ap Ai A ->
    factor_mem Q (Z.to_nat (w_n w)) (sm_outer A) (sm_inner A) (sm_values A) (w_Lp w) (w_Li w) (w_Lx w)
      (w_D w) (w_Dinv w) (w_Lnz w) (w_etree w) (w_bwork w) (w_iwork w) (w_fwork w) = true.
  Proof.
    intros H1 RD (-> & -> & Hv). destruct RD. rewrite rd_n0, Nat2Z.id. rewrite rd_Lnz0, rd_etree0.
    assert (F : firstn n Lnz = Lnz) by (apply firstn_all2; lia).
    apply factor_mem_intro; rewrite ?F; try assumption; try lia.
    - apply etree_mem_intro; try assumption; lia.
    - apply rd_analysed0. lia.
  Qed.

  Lemma factor_ready n Ap Ai Lnz etree w A : (1 <= n)%nat -> ready n Ap Ai Lnz etree w -> has_pattern n Ap Ai A ->
    exists w', Qdldl_Factor Q w A = Ok w' /\ ready n Ap Ai Lnz etree w'.
  Proof.
    intros H1 RD HA. assert (M := ready_mem n Ap Ai Lnz etree w A H1 RD HA). unfold Qdldl_Factor. rewrite M.
    cbn [ub_unless rbind]. assert (K := qk_factor Q QK _ _ _ _ _ _ _ _ _ _ _ _ _ _ M).
    destruct (q_factor Q _ _ _ _ _ _ _ _ _ _ _ _ _ _) as [[[[[[[[r Lp] Li] Lx] D] Dinv] bw] iw] fw].
    destruct K as (K1 & K2 & K3 & K4 & K5 & K6 & K7 & K8 & K9).
    eexists. split; [reflexivity|]. destruct RD.
    constructor; cbn [w_n w_Lnz w_etree w_Lp w_Li w_Lx w_D w_Dinv w_bwork w_iwork w_fwork];
      unfold len in *; try assumption; try congruence.
    rewrite rd_n0, Nat2Z.id in K9. apply K9. exact rd_ccs0.
  Qed.

  Lemma solve_ready n Ap Ai Lnz etree w x : ready n Ap Ai Lnz etree w ->
    match x with
    | None => Qdldl_Solve Q w x = UB UBNull
    | Some b =>
        if (n <=? length b)%nat
        then solve_mem n (w_Lp w) (w_Li w) (w_Lx w) (w_Dinv w) b = true /\
             Qdldl_Solve Q w x = Ok (q_solve Q n (w_Lp w) (w_Li w) (w_Lx w) (w_Dinv w) b)
        else Qdldl_Solve Q w x = UB UBSize
    end.
  Proof.
    intro RD. destruct x as [b|]; [|reflexivity]. destruct RD. unfold Qdldl_Solve. rewrite rd_n0, Nat2Z.id.
    assert (E : solve_mem n (w_Lp w) (w_Li w) (w_Lx w) (w_Dinv w) b = (n <=? length b)%nat).
    { unfold solve_mem. rewrite rd_ccs0. cbn [andb]. assert (C := rd_ccs0). unfold ccs_mem in C. bools.
      unfold len in *. rewrite rd_Dinv0.
      destruct (Z.leb_spec (ig (w_Lp w) n) (Z.of_nat (length (w_Lx w)))); [|lia].
      destruct (Z.leb_spec (Z.of_nat n) (Z.of_nat n)); [|lia]. cbn [andb].
      destruct (Nat.leb_spec n (length b)), (Z.leb_spec (Z.of_nat n) (Z.of_nat (length b))); try lia; reflexivity. }
    rewrite E. destruct (n <=? length b)%nat; [split; reflexivity|reflexivity].
  Qed.

  Lemma run_ready n Ap Ai Lnz etree : (1 <= n)%nat -> forall cs w, ready n Ap Ai Lnz etree w ->
    Forall (good_call n Ap Ai) cs ->
    exists w' ys, run_calls Q w cs = Ok (w', ys) /\ ready n Ap Ai Lnz etree w' /\
      Forall2 (fun x y => length y = length x /\ skipn n y = skipn n x) (solve_inputs cs) ys.
  Proof.
    intro H1. induction cs as [|c cs IH]; intros w RD F.
    - exists w, []. split; [reflexivity|]. split; [exact RD|]. constructor.
    - inversion F as [|? ? G F']; subst. destruct c as [A|[x|]]; cbn [run_calls solve_inputs good_call] in *; [| |contradiction].
      + destruct (factor_ready _ _ _ _ _ w A H1 RD G) as (w1 & -> & RD1). cbn [rbind]. apply IH; assumption.
      + assert (S1 := solve_ready _ _ _ _ _ w (Some x) RD). cbv iota in S1.
        destruct (Nat.leb_spec n (length x)); [|lia]. destruct S1 as [M ->]. cbn [rbind].
        destruct (IH w RD F') as (w' & ys & -> & RD' & F2). cbn [rbind fst snd].
        exists w'. eexists. split; [reflexivity|]. split; [exact RD'|]. constructor; [|exact F2].
        apply (qk_solve Q QK). exact M.
  Qed.

  Lemma run_solves n Ap Ai Lnz etree w xs w' ys : ready n Ap Ai Lnz etree w ->
    run_calls Q w (solve_each xs) = Ok (w', ys) ->
    ys = map (q_solve Q n (w_Lp w) (w_Li w) (w_Lx w) (w_Dinv w)) xs /\
    Forall (fun x => solve_mem n (w_Lp w) (w_Li w) (w_Lx w) (w_Dinv w) x = true) xs.
  Proof.
    intro RD. revert ys. induction xs as [|x xs IH]; intros ys; cbn [solve_each map run_calls].
    - intros [= <- <-]. split; [reflexivity|constructor].
    - assert (S1 := solve_ready _ _ _ _ _ w (Some x) RD). cbv iota in S1.
      destruct (n <=? length x)%nat; [|rewrite S1; discriminate]. destruct S1 as [M ->]. cbn [rbind].
      fold (solve_each xs). destruct (run_calls Q w (solve_each xs)) as [[w2 ys2]| |] eqn:E; cbn [rbind fst snd]; try discriminate.
      intros [= -> <-]. destruct (IH ys2 eq_refl) as [-> F]. split; [reflexivity|]. constructor; assumption.
  Qed.
End Any.

(* ---------- the properties, in any arithmetic ---------- *)

(* C71: the constructor.  3 n overflows int for n above 715827882; a negative n, and a pattern
   with an empty column or an entry below the diagonal, end in std::length_error; a well-formed
   upper triangular pattern of at most 65536 columns is accepted. *)
Theorem C71_constructor {T} (O : Ops T) (Q : Qdldl T) (QK : QdldlOk Q) (n : Z) (Ap Ai : list Z) :
  (in_int (3 * n) = false -> forall ap ai, QdldlWrapper_new O Q n ap ai = UB UBOverflow) /\
  (in_int (3 * n) = true -> n < 0 -> forall ap ai, QdldlWrapper_new O Q n ap ai = Throw ELength) /\
  (in_int (3 * n) = true -> 0 <= n -> pattern_mem (Z.to_nat n) Ap Ai = true ->
     is_ub (QdldlWrapper_new O Q n (Some Ap) (Some Ai)) = false /\
     (~ upper_pattern (Z.to_nat n) Ap Ai -> QdldlWrapper_new O Q n (Some Ap) (Some Ai) = Throw ELength) /\
     (upper_pattern (Z.to_nat n) Ap Ai -> n <= 65536 ->
        exists w, QdldlWrapper_new O Q n (Some Ap) (Some Ai) = Ok w)).
Proof.
  split; [|split].
  - intros H ap ai. unfold QdldlWrapper_new, imul. rewrite H. reflexivity.
  - intros H N ap ai. unfold QdldlWrapper_new, imul. rewrite H. cbn [rbind]. rewrite (resize_neg 0) by lia. reflexivity.
  - intros H N PM. assert (C := create_form O Q QK n Ap Ai N H PM). cbv zeta in C.
    destruct (q_etree Q _ Ap Ai _ _ _) as [[[r iwork] Lnz] etree].
    destruct C as (_ & _ & _ & C4 & C5 & ->). split; [destruct (r <? 0); reflexivity|]. split.
    + intro U. rewrite (C4 U). reflexivity.
    + intros U Hn. destruct (C5 U) as (B1 & B2 & B3).
      specialize (B2 Hn). destruct (Z.leb_spec (zsum Lnz) int_max); [|lia].
      destruct (Z.ltb_spec r 0); [lia|]. eexists. reflexivity.
Qed.

(* C71: a constructed object has a well-formed pattern *)
Theorem C71_constructed {T} (O : Ops T) (Q : Qdldl T) (QK : QdldlOk Q) (n : Z) (Ap Ai : list Z) w :
  QdldlWrapper_new O Q n (Some Ap) (Some Ai) = Ok w -> 0 <= n /\ upper_pattern (Z.to_nat n) Ap Ai.
Proof. intro H. destruct (create_ready O Q QK n Ap Ai w H) as (H1 & H2 & _). split; assumption. Qed.

(* C71: whatever is factored and solved, in whatever order and however often, QDLDL stays within
   the memory the wrapper allocated and nothing is thrown; each Solve overwrites the first n
   entries of its argument only. *)
Theorem C71_memory {T} (O : Ops T) (Q : Qdldl T) (QK : QdldlOk Q) (n : Z) (Ap Ai : list Z) w cs :
  1 <= n -> QdldlWrapper_new O Q n (Some Ap) (Some Ai) = Ok w ->
  Forall (good_call (Z.to_nat n) Ap Ai) cs ->
  exists w' ys, run_calls Q w cs = Ok (w', ys) /\
    Forall2 (fun x y => length y = length x /\ skipn (Z.to_nat n) y = skipn (Z.to_nat n) x) (solve_inputs cs) ys.
Proof.
  intros H1 H G. destruct (create_ready O Q QK n Ap Ai w H) as (_ & _ & Lnz & etree & RD & _).
  destruct (run_ready Q QK (Z.to_nat n) Ap Ai Lnz etree ltac:(lia) cs w (RD H1) G) as (w' & ys & E & _ & F).
  exists w', ys. split; assumption.
Qed.

(* C71: after any such calls, Solve is undefined behaviour exactly on a null pointer or a vector
   shorter than n *)
Theorem C71_solve_argument {T} (O : Ops T) (Q : Qdldl T) (QK : QdldlOk Q) (n : Z) (Ap Ai : list Z) w cs w' ys x :
  1 <= n -> QdldlWrapper_new O Q n (Some Ap) (Some Ai) = Ok w ->
  Forall (good_call (Z.to_nat n) Ap Ai) cs -> run_calls Q w cs = Ok (w', ys) ->
  (is_ub (Qdldl_Solve Q w' x) = true <->
   match x with None => True | Some b => len b < n end).
Proof.
  intros H1 H G E. destruct (create_ready O Q QK n Ap Ai w H) as (_ & _ & Lnz & etree & RD & _).
  destruct (run_ready Q QK (Z.to_nat n) Ap Ai Lnz etree ltac:(lia) cs w (RD H1) G) as (w2 & ys2 & E2 & RD2 & _).
  rewrite E in E2. injection E2 as <- <-.
  assert (S1 := solve_ready Q _ _ _ _ _ w' x RD2). destruct x as [b|].
  - unfold len. destruct (Nat.leb_spec (Z.to_nat n) (length b)).
    + destruct S1 as [_ ->]. cbn [is_ub]. split; [discriminate|lia].
    + rewrite S1. cbn [is_ub]. split; [lia|reflexivity].
  - rewrite S1. cbn [is_ub]. split; trivial.
Qed.

(* C71: what was factored and solved before makes no difference: whether QDLDL can factor A,
   and if it can everything Solve returns afterwards, is the same after any two histories *)
Theorem C71_history {T} (O : Ops T) (Q : Qdldl T) (QK : QdldlOk Q) (n : Z) (Ap Ai : list Z) w cs1 cs2 w1 w2 zs1 zs2 A xs :
  1 <= n -> QdldlWrapper_new O Q n (Some Ap) (Some Ai) = Ok w ->
  Forall (good_call (Z.to_nat n) Ap Ai) cs1 -> run_calls Q w cs1 = Ok (w1, zs1) ->
  Forall (good_call (Z.to_nat n) Ap Ai) cs2 -> run_calls Q w cs2 = Ok (w2, zs2) ->
  has_pattern (Z.to_nat n) Ap Ai A -> Forall (fun x => n <= len x) xs ->
  factor_result Q w1 A = factor_result Q w2 A /\
  (0 <= factor_result Q w1 A -> exists v1 v2 ys,
     run_calls Q w1 (QFactor A :: solve_each xs) = Ok (v1, ys) /\
     run_calls Q w2 (QFactor A :: solve_each xs) = Ok (v2, ys)).
Proof.
  intros H1 H G1 E1 G2 E2 HA HX. destruct (create_ready O Q QK n Ap Ai w H) as (_ & _ & Lnz & etree & RD & _).
  specialize (RD H1). set (k := Z.to_nat n) in *. assert (Hk : (1 <= k)%nat) by lia.
  destruct (run_ready Q QK k Ap Ai Lnz etree Hk cs1 w RD G1) as (w1' & ? & E1' & R1 & _).
  rewrite E1 in E1'. injection E1' as <- <-.
  destruct (run_ready Q QK k Ap Ai Lnz etree Hk cs2 w RD G2) as (w2' & ? & E2' & R2 & _).
  rewrite E2 in E2'. injection E2' as <- <-.
  assert (M1 := ready_mem Q _ _ _ _ _ w1 A Hk R1 HA). assert (M2 := ready_mem Q _ _ _ _ _ w2 A Hk R2 HA).
  destruct (factor_ready Q QK _ _ _ _ _ w1 A Hk R1 HA) as (v1 & F1 & V1).
  destruct (factor_ready Q QK _ _ _ _ _ w2 A Hk R2 HA) as (v2 & F2 & V2).
  assert (GX : Forall (good_call k Ap Ai) (solve_each xs)).
  { apply Forall_forall. intros c Hc. apply in_map_iff in Hc. destruct Hc as (x & <- & Hx).
    rewrite Forall_forall in HX. specialize (HX x Hx). unfold len in HX. cbn. lia. }
  destruct (run_ready Q QK k Ap Ai Lnz etree Hk (solve_each xs) v1 V1 GX) as (u1 & ys1 & Y1 & _).
  destruct (run_ready Q QK k Ap Ai Lnz etree Hk (solve_each xs) v2 V2 GX) as (u2 & ys2 & Y2 & _).
  assert (X1 := proj1 (run_solves Q _ _ _ _ _ v1 xs u1 ys1 V1 Y1)).
  assert (X2 := proj1 (run_solves Q _ _ _ _ _ v2 xs u2 ys2 V2 Y2)).
  cbn [run_calls]. rewrite F1, F2. cbn [rbind]. rewrite Y1, Y2.
  unfold factor_result. unfold Qdldl_Factor in F1, F2. rewrite M1 in F1. rewrite M2 in F2. cbn [ub_unless rbind] in F1, F2.
  rewrite (rd_n Q _ _ _ _ _ _ R1) in *. rewrite (rd_n Q _ _ _ _ _ _ R2) in *. rewrite Nat2Z.id in *.
  rewrite (rd_Lnz Q _ _ _ _ _ _ R1) in *. rewrite (rd_Lnz Q _ _ _ _ _ _ R2) in *.
  rewrite (rd_etree Q _ _ _ _ _ _ R1) in *. rewrite (rd_etree Q _ _ _ _ _ _ R2) in *.
  assert (K := qk_factor_fresh Q QK _ _ _ _ _ _ _ _ _ _ _ _ _ _ _ _ _ _ _ _ _ _ M1 M2).
  unfold len in K.
  rewrite (rd_len1 Q _ _ _ _ _ _ R1), (rd_Lp Q _ _ _ _ _ _ R1), (rd_Lp Q _ _ _ _ _ _ R2),
    (rd_D Q _ _ _ _ _ _ R1), (rd_D Q _ _ _ _ _ _ R2), (rd_Dinv Q _ _ _ _ _ _ R1), (rd_Dinv Q _ _ _ _ _ _ R2) in K.
  specialize (K eq_refl ltac:(lia) ltac:(lia) (rd_Li Q _ _ _ _ _ _ R1) (rd_Li Q _ _ _ _ _ _ R2)
     (rd_Lx Q _ _ _ _ _ _ R1) (rd_Lx Q _ _ _ _ _ _ R2) eq_refl eq_refl eq_refl eq_refl).
  destruct (q_factor Q k _ _ _ (w_Lp w1) _ _ _ _ _ _ _ _ _) as [[[[[[[[r1 a1] b1] c1] d1] e1] f1] g1] h1].
  destruct (q_factor Q k _ _ _ (w_Lp w2) _ _ _ _ _ _ _ _ _) as [[[[[[[[r2 a2] b2] c2] d2] e2] f2] g2] h2].
  cbn [fst]. destruct K as [K1 K2]. split; [exact K1|]. intro P. destruct (K2 P) as (-> & -> & -> & _ & ->).
  injection F1 as <-. injection F2 as <-. cbn [w_Lp w_Li w_Lx w_Dinv] in X1, X2.
  exists u1, u2, ys1. split; [reflexivity|]. rewrite X2, <- X1. reflexivity.
Qed.

(* C71: neither Factor nor Solve ever throws, whatever the object and the argument *)
Theorem C71_never_throws {T} (Q : Qdldl T) (w : wrapper T) A x e :
  Qdldl_Factor Q w A <> Throw e /\ Qdldl_Solve Q w x <> Throw e.
Proof.
  split.
  - unfold Qdldl_Factor. destruct (factor_mem _ _ _ _ _ _ _ _ _ _ _ _ _ _ _); cbn [ub_unless rbind]; [|discriminate].
    destruct (q_factor Q _ _ _ _ _ _ _ _ _ _ _ _ _ _) as [[[[[[[[? ?] ?] ?] ?] ?] ?] ?] ?]. discriminate.
  - unfold Qdldl_Solve. destruct x; [|discriminate].
    destruct (solve_mem _ _ _ _ _ _); discriminate.
Qed.

(* ---------- exact arithmetic ---------- *)
Section Exact.
  Context (Q : Qdldl R) (QK : QdldlOk Q) (QE : QdldlExact Q).

  Lemma compressed_matrix (A : sparse R) Ap Ai n : has_pattern n Ap Ai A -> sm_counts A = None ->
    sm_matrix A = upper_sym (entry Ap Ai (sm_values A)).
  Proof. intros (E1 & E2 & _) C. unfold sm_matrix, sm_positions, entry. rewrite C, E1, E2. reflexivity. Qed.

  Lemma factor_solves n Ap Ai Lnz etree w A w' : (1 <= n)%nat -> ready Q n Ap Ai Lnz etree w ->
    has_pattern n Ap Ai A -> sm_counts A = None -> no_duplicates n Ap Ai ->
    Qdldl_Factor Q w A = Ok w' -> 0 <= factor_result Q w A ->
    forall b, (n <= length b)%nat ->
      solution n (sm_matrix A) b (q_solve Q n (w_Lp w') (w_Li w') (w_Lx w') (w_Dinv w') b).
  Proof.
    intros H1 RD HA HC ND F P b Hb. assert (M := ready_mem Q _ _ _ _ _ w A H1 RD HA).
    rewrite (compressed_matrix A Ap Ai n HA HC).
    unfold Qdldl_Factor in F. rewrite M in F. cbn [ub_unless rbind] in F. unfold factor_result in P.
    destruct HA as (E1 & E2 & _). rewrite E1, E2 in *.
    rewrite (rd_n Q _ _ _ _ _ _ RD), Nat2Z.id in *.
    assert (K := qe_solve Q QE _ _ _ _ _ _ _ _ _ _ _ _ _ _ M ND).
    destruct (q_factor Q n _ _ _ _ _ _ _ _ _ _ _ _ _) as [[[[[[[[r a] c] d] e] f] g] h] i0].
    injection F as <-. cbn [fst w_Lp w_Li w_Lx w_Dinv] in *. intros i Hi. apply K; assumption.
  Qed.
End Exact.

Lemma quasidefinite_factorizable n K : symmetric n K -> quasidefinite n K -> factorizable n K.
Proof.
  intros Sy (P & QD) m Hm x Hx.
  set (u := fun i => if (i <? m)%nat && P i then x i else 0%R).
  set (v := fun i => if (i <? m)%nat && negb (P i) then x i else 0%R).
  (* both parts, extended by zero to n *)
  assert (Su : forall i, (m <= i)%nat -> u i = 0%R).
  { intros i Hi. unfold u. destruct (Nat.ltb_spec i m); [lia|reflexivity]. }
  assert (Sv : forall i, (m <= i)%nat -> v i = 0%R).
  { intros i Hi. unfold v. destruct (Nat.ltb_spec i m); [lia|reflexivity]. }
  assert (Suv : forall i, (i < m)%nat -> (u i + v i = x i)%R).
  { intros i Hi. unfold u, v. destruct (Nat.ltb_spec i m); [|lia]. cbn [andb]. destruct (P i); cbn [negb]; ring. }
  assert (Low : forall f g : nat -> R, (forall i, (m <= i)%nat -> f i = 0%R) -> (forall i, (m <= i)%nat -> g i = 0%R) ->
    rsum n (fun i => rsum n (fun j => f i * K i j * g j))%R = rsum m (fun i => rsum m (fun j => f i * K i j * g j))%R).
  { intros f g Hf Hg. rewrite (rsum_prefix m n) by (try lia; intros; apply rsum_zero; intros; rewrite Hf by assumption; ring).
    apply rsum_ext. intros i Hi. apply rsum_prefix; [lia|]. intros j J1 J2. rewrite Hg by assumption. ring. }
  assert (Half : forall f : nat -> R,
    (rsum m (fun i => rsum m (fun j => f i * K i j * u j)) + rsum m (fun i => rsum m (fun j => f i * K i j * v j)) = 0)%R).
  { intro f. rewrite <- rsum_add. apply rsum_zero. intros i Hi. rewrite <- rsum_add.
    rewrite (rsum_ext m _ (fun j => f i * (K i j * x j)))%R.
    2:{ intros j Hj. rewrite <- Suv by exact Hj. ring. }
    rewrite rsum_scal, Hx by exact Hi. ring. }
  assert (Cross : rsum m (fun i => rsum m (fun j => u i * K i j * v j))%R = rsum m (fun i => rsum m (fun j => v i * K i j * u j))%R).
  { rewrite rsum_swap. apply rsum_ext. intros j Hj. apply rsum_ext. intros i Hi. rewrite (Sy i j) by lia. ring. }
  assert (Eq : qform n K u = qform n K v).
  { unfold qform. rewrite (Low u u Su Su), (Low v v Sv Sv). assert (A1 := Half u). assert (A2 := Half v).
    rewrite Cross in A1. lra. }
  assert (Zq : forall f, (forall i, (i < n)%nat -> f i = 0%R) -> qform n K f = 0%R).
  { intros f Hf. unfold qform. apply rsum_zero. intros i Hi. apply rsum_zero. intros j Hj. rewrite Hf by exact Hi. ring. }
  destruct (some_nonzero n u) as [Nu|Zu].
  - destruct (QD u Nu) as [Pu _]. specialize (Pu ltac:(intros i _ E; unfold u; rewrite E, Bool.andb_false_r; reflexivity)).
    destruct (some_nonzero n v) as [Nv|Zv].
    + destruct (QD v Nv) as [_ Pv]. specialize (Pv ltac:(intros i _ E; unfold v; rewrite E; cbn [negb]; rewrite Bool.andb_false_r; reflexivity)). lra.
    + rewrite (Zq v Zv) in Eq. lra.
  - destruct (some_nonzero n v) as [Nv|Zv].
    + destruct (QD v Nv) as [_ Pv]. specialize (Pv ltac:(intros i _ E; unfold v; rewrite E; cbn [negb]; rewrite Bool.andb_false_r; reflexivity)).
      rewrite (Zq u Zu) in Eq. lra.
    + intros i Hi. rewrite <- Suv by exact Hi. rewrite (Zu i), (Zv i) by lia. ring.
Qed.

(* C71: after any calls, Factor(A) followed by Solve(&x), for any number of right-hand sides,
   solves A x = b for every matrix with the declared pattern, in compressed form and without
   repeated entries, whose leading blocks are invertible *)
Theorem C71_solves (Q : Qdldl R) (QK : QdldlOk Q) (QE : QdldlExact Q) (n : Z) (Ap Ai : list Z) w cs w1 zs A bs :
  1 <= n -> QdldlWrapper_new Rops Q n (Some Ap) (Some Ai) = Ok w ->
  Forall (good_call (Z.to_nat n) Ap Ai) cs -> run_calls Q w cs = Ok (w1, zs) ->
  has_pattern (Z.to_nat n) Ap Ai A -> sm_counts A = None -> no_duplicates (Z.to_nat n) Ap Ai ->
  factorizable (Z.to_nat n) (sm_matrix A) -> Forall (fun b => n <= len b) bs ->
  exists w2 xs, run_calls Q w1 (QFactor A :: solve_each bs) = Ok (w2, xs) /\
    Forall2 (solution (Z.to_nat n) (sm_matrix A)) bs xs.
Proof.
  intros H1 H G E HA HC ND FA HB. destruct (create_ready Rops Q QK n Ap Ai w H) as (_ & _ & Lnz & etree & RD & _).
  specialize (RD H1). set (k := Z.to_nat n) in *. assert (Hk : (1 <= k)%nat) by lia.
  destruct (run_ready Q QK k Ap Ai Lnz etree Hk cs w RD G) as (w1' & ? & E' & R1 & _).
  rewrite E in E'. injection E' as <- <-.
  destruct (factor_ready Q QK _ _ _ _ _ w1 A Hk R1 HA) as (v & F & V).
  assert (P : 0 <= factor_result Q w1 A).
  { unfold factor_result. apply (qe_factor Q QE).
    - apply (ready_mem Q k Ap Ai Lnz etree); assumption.
    - rewrite (rd_n Q _ _ _ _ _ _ R1), Nat2Z.id. destruct HA as (-> & -> & _). exact ND.
    - rewrite (rd_n Q _ _ _ _ _ _ R1), Nat2Z.id. rewrite (compressed_matrix A Ap Ai k HA HC) in FA.
      destruct HA as (-> & -> & _). exact FA. }
  assert (GX : Forall (good_call k Ap Ai) (solve_each bs)).
  { apply Forall_forall. intros c Hc. apply in_map_iff in Hc. destruct Hc as (x & <- & Hx).
    rewrite Forall_forall in HB. specialize (HB x Hx). unfold len in HB. cbn. lia. }
  destruct (run_ready Q QK k Ap Ai Lnz etree Hk (solve_each bs) v V GX) as (u & ys & Y & _).
  exists u, ys. cbn [run_calls]. rewrite F. cbn [rbind]. split; [exact Y|].
  destruct (run_solves Q _ _ _ _ _ v bs u ys V Y) as [-> _].
  assert (FS := factor_solves Q QE k Ap Ai Lnz etree w1 A v Hk R1 HA HC ND F P).
  clear Y GX. induction HB as [|b bs Hb HB IH]; cbn [map]; constructor; [|exact IH].
  apply FS. unfold len in Hb. lia.
Qed.

(* C71: in particular for every quasi-definite matrix, the class the wrapper is made for *)
Theorem C71_quasidefinite (Q : Qdldl R) (QK : QdldlOk Q) (QE : QdldlExact Q) (n : Z) (Ap Ai : list Z) w cs w1 zs A bs :
  1 <= n -> QdldlWrapper_new Rops Q n (Some Ap) (Some Ai) = Ok w ->
  Forall (good_call (Z.to_nat n) Ap Ai) cs -> run_calls Q w cs = Ok (w1, zs) ->
  has_pattern (Z.to_nat n) Ap Ai A -> sm_counts A = None -> no_duplicates (Z.to_nat n) Ap Ai ->
  quasidefinite (Z.to_nat n) (sm_matrix A) -> Forall (fun b => n <= len b) bs ->
  exists w2 xs, run_calls Q w1 (QFactor A :: solve_each bs) = Ok (w2, xs) /\
    Forall2 (solution (Z.to_nat n) (sm_matrix A)) bs xs.
Proof.
  intros H1 H G E HA HC ND QD HB. eapply C71_solves; try eassumption.
  apply quasidefinite_factorizable; [|exact QD]. apply upper_sym_sym.
Qed.

(* C71: Solve before the first Factor is not refused; it returns the zero vector *)
Theorem C71_solve_before_factor (Q : Qdldl R) (QK : QdldlOk Q) (QE : QdldlExact Q) (n : Z) (Ap Ai : list Z) w b :
  1 <= n -> QdldlWrapper_new Rops Q n (Some Ap) (Some Ai) = Ok w -> n <= len b ->
  exists x, Qdldl_Solve Q w (Some b) = Ok x /\ forall i, (i < Z.to_nat n)%nat -> rg x i = 0%R.
Proof.
  intros H1 H Hb. destruct (create_ready Rops Q QK n Ap Ai w H) as (_ & _ & Lnz & etree & RD & Z1 & Z2).
  specialize (RD H1). assert (S1 := solve_ready Q _ _ _ _ _ w (Some b) RD). cbv iota in S1. unfold len in Hb.
  destruct (Nat.leb_spec (Z.to_nat n) (length b)); [|lia]. destruct S1 as [M ->]. eexists. split; [reflexivity|].
  apply (qe_zero Q QE); [exact M|intros; apply Z1|intros; apply Z2].
Qed.

(* C71: a failed factorization goes unnoticed.  Whatever the library, there is a matrix with the
   declared pattern for which Factor and Solve both return normally although A x = b has no solution. *)
Theorem C71_failure_is_silent (Q : Qdldl R) (QK : QdldlOk Q) (QE : QdldlExact Q) :
  exists n Ap Ai w A w' b x, 1 <= n /\ QdldlWrapper_new Rops Q n (Some Ap) (Some Ai) = Ok w /\
    has_pattern (Z.to_nat n) Ap Ai A /\ sm_counts A = None /\ no_duplicates (Z.to_nat n) Ap Ai /\ n <= len b /\
    Qdldl_Factor Q w A = Ok w' /\ Qdldl_Solve Q w' (Some b) = Ok x /\ factor_result Q w A < 0 /\
    ~ exists y, solution (Z.to_nat n) (sm_matrix A) b y.
Proof.
  assert (U : upper_pattern 1 [0; 1] [0]).
  { apply upperb_ok. reflexivity. }
  destruct (proj2 (proj2 (C71_constructor Rops Q QK 1 [0; 1] [0])) eq_refl ltac:(lia) eq_refl) as (_ & _ & W).
  destruct (W U ltac:(lia)) as (w & HW).
  set (A := mkSparse [0; 1] [0] [0%R] None).
  assert (HA : has_pattern 1 [0; 1] [0] A) by (split; [reflexivity|split; [reflexivity|cbn; lia]]).
  assert (ND : no_duplicates 1 [0; 1] [0]).
  { intros j Hj. replace j with 0%nat by lia. cbn. constructor; [intros []|constructor]. }
  assert (NS : ~ exists y, solution 1 (sm_matrix A) [1%R] y).
  { intros (y & Y). specialize (Y 0%nat ltac:(lia)). cbn [rsum] in Y.
    assert (E0 : sm_matrix A 0%nat 0%nat = 0%R).
    { change (sm_matrix A 0%nat 0%nat) with (0 + 0)%R. ring. }
    rewrite E0 in Y. change (rg [1%R] 0) with 1%R in Y. lra. }
  destruct (create_ready Rops Q QK 1 [0; 1] [0] w HW) as (_ & _ & Lnz & etree & RD & _). specialize (RD ltac:(lia)).
  destruct (factor_ready Q QK 1 _ _ _ _ w A (le_n 1) RD HA) as (w' & F & RD').
  assert (S1 := solve_ready Q _ _ _ _ _ w' (Some [1%R]) RD'). cbn [Z.to_nat Pos.to_nat Pos.iter_op Nat.leb length] in S1.
  destruct S1 as [_ S1].
  exists 1, [0; 1], [0], w, A, w', [1%R]. eexists. split; [lia|]. split; [exact HW|]. split; [exact HA|].
  split; [reflexivity|]. split; [exact ND|]. split; [cbn; lia|]. split; [exact F|]. split; [exact S1|]. split; [|exact NS].
  destruct (Z.lt_ge_cases (factor_result Q w A) 0) as [|P]; [assumption|]. exfalso. apply NS. eexists.
  apply (factor_solves Q QE 1 [0; 1] [0] Lnz etree w A w'); try assumption; try reflexivity; try lia.
Qed.

(* ---------- the hypotheses can be met ---------- *)
(* the pattern of the unit test, tools/qdldl/test/qdldl_test.cc:34-36, is accepted *)
Example C71_unit_test_pattern :
  exists w, QdldlWrapper_new Rops (full_ldl Rops) 10 (Some [0; 1; 2; 4; 5; 6; 8; 10; 12; 14; 17])
    (Some [0; 1; 1; 2; 3; 4; 1; 5; 0; 6; 3; 7; 6; 8; 1; 2; 9]) = Ok w.
Proof.
  apply (proj2 (proj2 (C71_constructor Rops _ (full_ldl_ok Rops) 10 _ _))); [reflexivity|lia|reflexivity| |lia].
  apply upperb_ok. reflexivity.
Qed.
(* and one with an entry below the diagonal is not *)
Example C71_lower_pattern :
  QdldlWrapper_new Rops (full_ldl Rops) 2 (Some [0; 2; 3]) (Some [0; 1; 1]) = Throw ELength.
Proof.
  apply (proj2 (proj2 (C71_constructor Rops _ (full_ldl_ok Rops) 2 _ _))); [reflexivity|lia|reflexivity|].
  intro U. apply upperb_ok in U. discriminate.
Qed.

(* [[2, 1], [1, -1]], quasi-definite, factored after another matrix of the pattern that QDLDL
   cannot factor, with a Solve in between *)
Definition ex_qd : sparse R := mkSparse [0; 1; 3] [0; 0; 1] [2; 1; -1]%R None.
Definition ex_bad : sparse R := mkSparse [0; 1; 3] [0; 0; 1] [0; 1; 0]%R None.
Lemma ex_qd_matrix : forall i j, (i < 2)%nat -> (j < 2)%nat ->
  sm_matrix ex_qd i j = match i, j with 0%nat, 0%nat => 2 | 1%nat, 1%nat => -1 | _, _ => 1 end%R.
Proof.
  intros i j Hi Hj. destruct i as [|[|i]]; [| |lia]; destruct j as [|[|j]]; try lia.
  - change (sm_matrix ex_qd 0%nat 0%nat) with (2 + 0)%R. ring.
  - change (sm_matrix ex_qd 0%nat 1%nat) with (1 + (0 + 0))%R. ring.
  - change (sm_matrix ex_qd 1%nat 0%nat) with (1 + (0 + 0))%R. ring.
  - change (sm_matrix ex_qd 1%nat 1%nat) with (0 + (-1 + 0))%R. ring.
Qed.
Lemma ex_quasidefinite : quasidefinite 2 (sm_matrix ex_qd).
Proof.
  exists (fun i => Nat.eqb i 0). intros x (i & Hi & N). unfold qform. cbn [rsum].
  rewrite !ex_qd_matrix by lia. split; intro H.
  - assert (X1 := H 1%nat ltac:(lia) eq_refl). rewrite X1 in *.
    assert (x 0%nat <> 0)%R by (destruct i as [|[|i]]; [exact N|contradiction|lia]). nra.
  - assert (X0 := H 0%nat ltac:(lia) eq_refl). rewrite X0 in *.
    assert (x 1%nat <> 0)%R by (destruct i as [|[|i]]; [contradiction|exact N|lia]). nra.
Qed.
Example C71_example : exists w w1 zs w2 x,
  QdldlWrapper_new Rops (full_ldl Rops) 2 (Some [0; 1; 3]) (Some [0; 0; 1]) = Ok w /\
  run_calls (full_ldl Rops) w [QSolve (Some [5; 7]%R); QFactor ex_bad; QSolve (Some [1; 1; 9]%R)] = Ok (w1, zs) /\
  run_calls (full_ldl Rops) w1 (QFactor ex_qd :: solve_each [[3; 0]%R]) = Ok (w2, [x]) /\
  rg x 0 = 1%R /\ rg x 1 = 1%R.
Proof.
  assert (U : upper_pattern 2 [0; 1; 3] [0; 0; 1]) by (apply upperb_ok; reflexivity).
  destruct (proj2 (proj2 (C71_constructor Rops _ (full_ldl_ok Rops) 2 [0; 1; 3] [0; 0; 1])) eq_refl ltac:(lia) eq_refl)
    as (_ & _ & W).
  destruct (W U ltac:(lia)) as (w & HW).
  assert (G : Forall (good_call (Z.to_nat 2) [0; 1; 3] [0; 0; 1])
    [QSolve (Some [5; 7]%R); QFactor ex_bad; QSolve (Some [1; 1; 9]%R)]).
  { constructor; [change (2 <= 2)%nat; lia|].
    constructor; [split; [reflexivity|split; [reflexivity|change (3 <= 3); lia]]|].
    constructor; [change (2 <= 3)%nat; lia|constructor]. }
  destruct (C71_memory Rops _ (full_ldl_ok Rops) 2 _ _ w _ ltac:(lia) HW G) as (w1 & zs & E & _).
  destruct (C71_quasidefinite _ (full_ldl_ok Rops) full_ldl_exact 2 _ _ w _ w1 zs ex_qd [[3; 0]%R] ltac:(lia) HW G E)
    as (w2 & xs & E2 & F).
  - split; [reflexivity|split; [reflexivity|change (3 <= 3); lia]].
  - reflexivity.
  - intros j Hj. change (Z.to_nat 2) with 2%nat in Hj. destruct j as [|[|j]]; [| |lia].
    + change (NoDup [0]). constructor; [intros []|constructor].
    + change (NoDup [0; 1]). constructor; [intros [C|[]]; discriminate|]. constructor; [intros []|constructor].
  - exact ex_quasidefinite.
  - constructor; [cbn; lia|constructor].
  - inversion F as [|b x bs ys S1 F2 E3 E4]; subst. inversion F2; subst.
    exists w, w1, zs, w2, x. split; [exact HW|]. split; [exact E|]. split; [exact E2|].
    change (Z.to_nat 2) with 2%nat in S1.
    assert (A0 := S1 0%nat ltac:(lia)). assert (A1 := S1 1%nat ltac:(lia)). cbn [rsum] in A0, A1.
    rewrite !ex_qd_matrix in A0, A1 by lia. change (rg [3; 0]%R 0) with 3%R in A0. change (rg [3; 0]%R 1) with 0%R in A1.
    split; lra.
Qed.

(* C71: an Eigen matrix that is not in compressed form is not refused either (the TODO at
   qdldl_wrapper.h:51): whatever the library, there is one with invertible leading blocks for
   which Factor and Solve return normally with a vector that does not solve the system. *)
Theorem C71_uncompressed_matrix (Q : Qdldl R) (QK : QdldlOk Q) (QE : QdldlExact Q) :
  exists n Ap Ai w A w' b x, 1 <= n /\ QdldlWrapper_new Rops Q n (Some Ap) (Some Ai) = Ok w /\
    has_pattern (Z.to_nat n) Ap Ai A /\ no_duplicates (Z.to_nat n) Ap Ai /\ n <= len b /\
    factorizable (Z.to_nat n) (sm_matrix A) /\
    Qdldl_Factor Q w A = Ok w' /\ Qdldl_Solve Q w' (Some b) = Ok x /\
    ~ solution (Z.to_nat n) (sm_matrix A) b x.
Proof.
  set (A := mkSparse [0; 1; 3] [0; 0; 1] [2; 1; -1]%R (Some [1; 1])).
  assert (U : upper_pattern 2 [0; 1; 3] [0; 0; 1]) by (apply upperb_ok; reflexivity).
  destruct (proj2 (proj2 (C71_constructor Rops Q QK 2 [0; 1; 3] [0; 0; 1])) eq_refl ltac:(lia) eq_refl)
    as (_ & _ & W).
  destruct (W U ltac:(lia)) as (w & HW).
  assert (ND : no_duplicates (Z.to_nat 2) [0; 1; 3] [0; 0; 1]).
  { intros j Hj. change (Z.to_nat 2) with 2%nat in Hj. destruct j as [|[|j]]; [| |lia].
    + change (NoDup [0]). constructor; [intros []|constructor].
    + change (NoDup [0; 1]). constructor; [intros [C|[]]; discriminate|]. constructor; [intros []|constructor]. }
  destruct (C71_quasidefinite Q QK QE 2 _ _ w [] w [] ex_qd [[3; 0]%R] ltac:(lia) HW ltac:(constructor) eq_refl)
    as (w2 & xs & E2 & F).
  { split; [reflexivity|split; [reflexivity|change (3 <= 3); lia]]. }
  { reflexivity. } { exact ND. } { exact ex_quasidefinite. } { constructor; [cbn; lia|constructor]. }
  inversion F as [|b x bs ys S1 F2 E3 E4]; subst. inversion F2; subst. clear F F2.
  cbn [run_calls solve_each map] in E2.
  change (Qdldl_Factor Q w ex_qd) with (Qdldl_Factor Q w A) in E2.
  destruct (Qdldl_Factor Q w A) as [w'| |] eqn:EF; cbn [rbind] in E2; try discriminate.
  destruct (Qdldl_Solve Q w' (Some [3; 0]%R)) as [y| |] eqn:ES; cbn [rbind fst snd] in E2; try discriminate.
  injection E2 as _ ->.
  assert (M : forall i j, (i < 2)%nat -> (j < 2)%nat ->
    sm_matrix A i j = match i, j with 0%nat, 0%nat => 2 | 1%nat, 1%nat => 0 | _, _ => 1 end%R).
  { intros i j Hi Hj. destruct i as [|[|i]]; [| |lia]; destruct j as [|[|j]]; try lia.
    - change (sm_matrix A 0%nat 0%nat) with (2 + 0)%R. ring.
    - change (sm_matrix A 0%nat 1%nat) with (1 + 0)%R. ring.
    - change (sm_matrix A 1%nat 0%nat) with (1 + 0)%R. ring.
    - change (sm_matrix A 1%nat 1%nat) with (0 + 0)%R. ring. }
  exists 2, [0; 1; 3], [0; 0; 1], w, A, w', [3; 0]%R, x.
  split; [lia|]. split; [exact HW|]. split; [split; [reflexivity|split; [reflexivity|change (3 <= 3); lia]]|].
  split; [exact ND|]. split; [cbn; lia|]. split; [|split; [exact EF|split; [exact ES|]]].
  - intros m Hm v Hv. change (Z.to_nat 2) with 2%nat in Hm. destruct m as [|[|[|m]]]; [intros; lia| | |lia].
    + assert (V := Hv 0%nat ltac:(lia)). cbn [rsum] in V. rewrite !M in V by lia. intros i Hi. replace i with 0%nat by lia. lra.
    + assert (V0 := Hv 0%nat ltac:(lia)). assert (V1 := Hv 1%nat ltac:(lia)). cbn [rsum] in V0, V1. rewrite !M in V0, V1 by lia.
      intros i Hi. destruct i as [|[|i]]; [lra|lra|lia].
  - intro S2. change (Z.to_nat 2) with 2%nat in S1, S2.
    assert (A0 := S1 0%nat ltac:(lia)). assert (A1 := S1 1%nat ltac:(lia)). assert (A2 := S2 1%nat ltac:(lia)).
    cbn [rsum] in A0, A1, A2. rewrite !ex_qd_matrix in A0, A1 by lia. rewrite !M in A2 by lia.
    change (rg [3; 0]%R 0) with 3%R in A0. change (rg [3; 0]%R 1) with 0%R in A1, A2. lra.
Qed.
