(* One implementation of the QDLDL interface with the properties PropsQdldl.v assumes: LDL'
   without pivoting that treats L as full.  It models no code of /repo; it shows that the
   hypotheses QdldlOk and QdldlExact can be met together. *)
From Verif Require Export QdldlSpec LAInstOk.
Local Open Scope Z_scope.

(* write [new] over the front of an array *)
Definition over {A} (new old : list A) : list A := new ++ skipn (length new) old.
Lemma over_length {A} (new old : list A) : (length new <= length old)%nat -> length (over new old) = length old.
Proof. intro H. unfold over. rewrite app_length, skipn_length. lia. Qed.
Lemma over_exact {A} (new old : list A) : length new = length old -> over new old = new.
Proof. intro H. unfold over. rewrite H, skipn_all, app_nil_r. reflexivity. Qed.
Lemma over_skip {A} (new old : list A) n : length new = n -> skipn n (over new old) = skipn n old.
Proof. intros <-. unfold over. rewrite skipn_app, skipn_all, Nat.sub_diag. reflexivity. Qed.
Lemma over_nth {A} (new old : list A) i d : (i < length new)%nat -> nth i (over new old) d = nth i new d.
Proof. intro H. unfold over. apply app_nth1. exact H. Qed.

Definition upperb (n : nat) (Ap Ai : list Z) : bool :=
  forallb (fun j => (ig Ap j <? ig Ap (S j)) &&
                    forallb (fun p => ig Ai p <=? Z.of_nat j) (col_positions Ap j)) (seq 0 n).
Lemma upperb_ok n Ap Ai : upperb n Ap Ai = true <-> upper_pattern n Ap Ai.
Proof.
  unfold upperb, upper_pattern. rewrite forallb_forall. split; intros H j Hj.
  - assert (I : In j (seq 0 n)) by (apply in_seq; lia). specialize (H j I).
    apply Bool.andb_true_iff in H. destruct H as [H1 H2]. rewrite forallb_forall in H2. split; [lia|].
    intros p Hp. specialize (H2 p Hp). lia.
  - apply in_seq in Hj. destruct (H j ltac:(lia)) as [H1 H2]. apply Bool.andb_true_iff. split; [lia|].
    apply forallb_forall. intros p Hp. specialize (H2 p Hp). lia.
Qed.

(* 0, s_0, s_0 + s_1, ... *)
Fixpoint offsets (s : Z) (l : list Z) : list Z :=
  match l with [] => [s] | a :: l' => s :: offsets (s + a) l' end.
Lemma offsets_length s l : length (offsets s l) = S (length l).
Proof. revert s. induction l; intro s; cbn; [reflexivity|]. rewrite IHl. reflexivity. Qed.
Lemma offsets_first s l : nth 0 (offsets s l) 0 = s. Proof. destruct l; reflexivity. Qed.
Lemma offsets_step : forall l s i, (i < length l)%nat ->
  nth (S i) (offsets s l) 0 = nth i (offsets s l) 0 + nth i l 0.
Proof.
  induction l as [|a l IH]; intros s i Hi; [cbn in Hi; lia|].
  destruct i; cbn [offsets nth].
  - rewrite offsets_first. reflexivity.
  - apply IH. cbn in Hi. lia.
Qed.
Lemma offsets_last : forall l s, nth (length l) (offsets s l) 0 = s + zsum l.
Proof. induction l as [|a l IH]; intro s; cbn [offsets length nth zsum fold_right]; [lia|]. rewrite IH. unfold zsum. lia. Qed.

(* rows of lengths i, i+1, ... packed one after another *)
Fixpoint unpack {T} (n i : nat) (l : list T) : list (list T) :=
  match n with 0%nat => [] | S n' => firstn i l :: unpack n' (S i) (skipn i l) end.
Lemma unpack_concat {T} : forall (rs : list (list T)) i rest,
  (forall k, (k < length rs)%nat -> length (nth k rs []) = (i + k)%nat) ->
  unpack (length rs) i (concat rs ++ rest) = rs.
Proof.
  induction rs as [|r rs IH]; intros i rest H; [reflexivity|].
  cbn [length unpack concat]. assert (H0 := H 0%nat ltac:(cbn; lia)). cbn in H0. rewrite Nat.add_0_r in H0.
  rewrite <- app_assoc. f_equal.
  - rewrite firstn_app, <- H0, firstn_all, Nat.sub_diag, firstn_O. apply app_nil_r.
  - rewrite skipn_app, <- H0, skipn_all, Nat.sub_diag. cbn [app skipn]. apply IH.
    intros k Hk. specialize (H (S k)). cbn [nth length] in H. rewrite H by lia. lia.
Qed.
Lemma concat_tri {T} : forall (rs : list (list T)) i,
  (forall k, (k < length rs)%nat -> length (nth k rs []) = (i + k)%nat) ->
  Z.of_nat (length (concat rs)) = zsum (map (fun k => Z.of_nat (i + k)) (seq 0 (length rs))).
Proof.
  induction rs as [|r rs IH]; intros i H; [reflexivity|].
  cbn [concat length seq map zsum fold_right]. rewrite app_length.
  assert (H0 := H 0%nat ltac:(cbn; lia)). cbn [nth] in H0. rewrite Nat2Z.inj_add, H0.
  rewrite (IH (S i)).
  2:{ intros k Hk. specialize (H (S k)). cbn [nth length] in H. rewrite H by lia. lia. }
  f_equal. unfold zsum. f_equal. rewrite <- seq_shift, map_map. apply map_ext. intro; lia.
Qed.

Section Inst.
  Context {T : Type} (O : Ops T).

  Definition counts (n : nat) : list Z := map (fun i => Z.of_nat n - 1 - Z.of_nat i) (seq 0 n).
  Definition parents (n : nat) : list Z :=
    map (fun i => if Nat.eqb (S i) n then -1 else Z.of_nat (S i)) (seq 0 n).
  Definition full_etree (n : nat) (Ap Ai work Lnz etree : list Z) : Z * list Z * list Z * list Z :=
    if upperb n Ap Ai
    then (if zsum (counts n) <=? int_max then zsum (counts n) else -2, work,
          over (counts n) Lnz, over (parents n) etree)
    else (-1, work, Lnz, etree).

  Definition val_at (Ap Ai : list Z) (Ax : list T) (i j : nat) : T :=
    fold_right (o_add O) (o_zero O)
      (map (fun p => if ig Ai p =? Z.of_nat i then vget O Ax p else o_zero O) (col_positions Ap j)).
  Definition val_sym (Ap Ai : list Z) (Ax : list T) (i j : nat) : T :=
    if Nat.leb i j then val_at Ap Ai Ax i j else val_at Ap Ai Ax j i.

  Definition full_factor (n : nat) (Ap Ai : list Z) (Ax : list T) (Lp Li : list Z)
    (Lx D Dinv : list T) (Lnz etree bwork iwork : list Z) (fwork : list T)
    : Z * list Z * list Z * list T * list T * list T * list Z * list Z * list T :=
    let Lp' := over (offsets 0 (firstn n Lnz)) Lp in
    let Li' := repeat 0 (length Li) in
    match ldl_rows O (val_sym Ap Ai Ax) n 0 [] [] with
    | None => (-1, Lp', Li', Lx, D, Dinv, bwork, iwork, fwork)
    | Some (rows, d) =>
        (len (filter (fun e => o_ltb O (o_zero O) e) d), Lp', Li',
         over (concat (map (@removelast T) rows)) Lx, over d D,
         over (map (fun e => o_div O (o_one O) e) d) Dinv, bwork, iwork, fwork)
    end.

  Definition full_rows (n : nat) (Lx : list T) : list (list T) :=
    map (fun r => r ++ [o_one O]) (unpack n 0 Lx).
  Definition full_solve (n : nat) (Lp Li : list Z) (Lx Dinv x : list T) : list T :=
    let rows := full_rows n Lx in
    let y := fsub O rows x [] in
    let z := tab n (fun i => o_mul O (vget O y i) (vget O Dinv i)) in
    over (bsub O (fun i j => vget O (nth i rows []) j) z n []) x.

  Definition full_ldl : Qdldl T := mkQdldl T full_etree full_factor full_solve.

  Lemma counts_length n : length (counts n) = n.
  Proof. unfold counts. rewrite map_length, seq_length. reflexivity. Qed.
  Lemma parents_length n : length (parents n) = n.
  Proof. unfold parents. rewrite map_length, seq_length. reflexivity. Qed.
  Lemma counts_nth n i : (i < n)%nat -> nth i (counts n) 0 = Z.of_nat n - 1 - Z.of_nat i.
  Proof.
    intro H. unfold counts. set (f := fun i => Z.of_nat n - 1 - Z.of_nat i).
    rewrite (nth_indep _ 0 (f 0%nat)) by (rewrite map_length, seq_length; exact H).
    rewrite map_nth, seq_nth by exact H. reflexivity.
  Qed.
  Lemma fsub_len : forall rows b x, length (fsub O rows b x) = (length x + length rows)%nat.
  Proof.
    induction rows as [|r rows IH]; intros b x; cbn [fsub length]; [lia|].
    rewrite IH, app_length. cbn. lia.
  Qed.
  Lemma bsub_len : forall n L b x, length (bsub O L b n x) = (n + length x)%nat.
  Proof. induction n; intros L b x; cbn [bsub]; [reflexivity|]. rewrite IHn. cbn. lia. Qed.
  Lemma unpack_len : forall n i (l : list T), length (unpack n i l) = n.
  Proof. induction n; intros; cbn; [reflexivity|]. rewrite IHn. reflexivity. Qed.

  (* shape of the output of ldl_rows, in any arithmetic *)
  Definition unit_rows (i : nat) (rows : list (vec T)) : Prop :=
    length rows = i /\ forall k, (k < i)%nat -> exists l, length l = k /\ nth k rows [] = l ++ [o_one O].
  Lemma ldl_rows_shape : forall n K i rows d out od, unit_rows i rows -> length d = i ->
    ldl_rows O K n i rows d = Some (out, od) -> unit_rows (i + n) out /\ length od = (i + n)%nat.
  Proof.
    induction n as [|n IH]; intros K i rows d out od U Hd; cbn [ldl_rows].
    - intros [= <- <-]. rewrite Nat.add_0_r. split; assumption.
    - destruct (o_eqb O _ _); [discriminate|]. intro H.
      replace (i + S n)%nat with (S i + n)%nat by lia. eapply IH; [| |exact H].
      2:{ rewrite app_length. cbn. lia. }
      destruct U as [U1 U2]. split; [rewrite app_length; cbn; lia|]. intros k Hk.
      destruct (Nat.eq_dec k i) as [->|E].
      + rewrite app_nth2 by lia. rewrite U1, Nat.sub_diag. cbn [nth]. eexists. split; [|reflexivity].
        autorewrite with vlen. rewrite fsub_len. cbn. exact U1.
      + rewrite app_nth1 by lia. apply U2. lia.
  Qed.
  Lemma zsum_app a b : zsum (a ++ b) = zsum a + zsum b.
  Proof. unfold zsum. induction a as [|x a IH]; cbn [app fold_right]; [lia|]. rewrite IH. lia. Qed.
  Lemma zsum_counts n : zsum (counts n) = zsum (map (fun k => Z.of_nat (0 + k)) (seq 0 n)).
  Proof.
    unfold counts. induction n as [|n IH]; [reflexivity|].
    rewrite seq_S at 2. rewrite map_app, zsum_app, <- IH. cbn [seq map]. rewrite <- seq_shift, map_map.
    cbn [zsum fold_right map].
    replace (map (fun x => Z.of_nat (S n) - 1 - Z.of_nat (S x)) (seq 0 n))
      with (map (fun i => Z.of_nat n - 1 - Z.of_nat i) (seq 0 n)) by (apply map_ext; intro; lia).
    unfold zsum. lia.
  Qed.
  Lemma unit_removelast i rows : unit_rows i rows ->
    map (fun r => r ++ [o_one O]) (map (@removelast T) rows) = rows /\
    (forall k, (k < length (map (@removelast T) rows))%nat ->
       length (nth k (map (@removelast T) rows) []) = (0 + k)%nat) /\
    len (concat (map (@removelast T) rows)) = zsum (counts i).
  Proof.
    intros U. unfold unit_rows, vec in *. destruct U as [U1 U2].
    assert (F : forall k, (k < i)%nat -> nth k (map (@removelast T) rows) [] = removelast (nth k rows [])).
    { intros k Hk. change (@nil T) with (removelast (@nil T)) at 1. apply map_nth. }
    assert (L : forall k, (k < length (map (@removelast T) rows))%nat ->
       length (nth k (map (@removelast T) rows) []) = (0 + k)%nat).
    { intros k Hk. rewrite map_length, U1 in Hk. rewrite F by exact Hk.
      destruct (U2 k Hk) as (l & L1 & ->). rewrite removelast_last. exact L1. }
    split; [|split; [exact L|]].
    - apply (nth_ext _ _ [] []); [rewrite !map_length; reflexivity|]. rewrite !map_length. intros k Hk. rewrite U1 in Hk.
      set (f := fun r => r ++ [o_one O]).
      rewrite (nth_indep _ [] (f [])) by (rewrite !map_length; lia).
      rewrite (map_nth f). rewrite F by exact Hk. destruct (U2 k Hk) as (l & L1 & ->). unfold f.
      rewrite removelast_last. reflexivity.
    - unfold len. rewrite (concat_tri _ 0 L). rewrite map_length, U1. symmetry. apply zsum_counts.
  Qed.

  (* what factor_mem says of this implementation *)
  Lemma full_mem n Ap Ai Ax Lp Li Lx D Dinv Lnz etree bwork iwork fwork :
    factor_mem full_ldl n Ap Ai Ax Lp Li Lx D Dinv Lnz etree bwork iwork fwork = true ->
    (1 <= n)%nat /\ (n + 1 <= length Lp)%nat /\ zsum (counts n) <= len Li /\ zsum (counts n) <= len Lx /\
    (n <= length D)%nat /\ (n <= length Dinv)%nat /\ (n <= length Lnz)%nat /\
    firstn n Lnz = counts n /\ upper_pattern n Ap Ai.
  Proof.
    intro H. apply factor_mem_inv in H.
    destruct H as (A1 & A2 & A3 & A4 & A5 & A6 & A7 & A8 & A9 & A10 & A11 & A14).
    apply etree_mem_inv in A2. destruct A2 as (B1 & B2 & B3 & B4).
    unfold analysed in A14. cbn [q_etree full_ldl] in A14. unfold full_etree in A14.
    destruct (upperb n Ap Ai) eqn:U; [|cbn in A14; discriminate].
    rewrite !Bool.andb_true_iff in A14. destruct A14 as ((C1 & C2) & C3). apply same_ints_ok in C2.
    assert (F : firstn n Lnz = counts n).
    { rewrite <- C2. unfold over. rewrite firstn_app, counts_length, Nat.sub_diag, firstn_O, app_nil_r.
      rewrite <- (counts_length n) at 1. apply firstn_all. }
    rewrite F in A5, A6. do 7 (split; [assumption|]). split; [exact F|]. apply upperb_ok. exact U.
  Qed.

  Lemma ccs_mem_intro n Lp Li : (n + 1 <= length Lp)%nat -> ig Lp 0 = 0 ->
    (forall j, (j < n)%nat -> ig Lp j <= ig Lp (S j)) -> ig Lp n <= len Li ->
    (forall i, In i Li -> 0 <= i < Z.of_nat n) -> ccs_mem n Lp Li = true.
  Proof.
    intros H1 H2 H3 H4 H5. unfold ccs_mem, len. rewrite !Bool.andb_true_iff. repeat split; try lia.
    - apply forallb_forall. intros j Hj. apply in_seq in Hj. specialize (H3 j ltac:(lia)). lia.
    - unfold len in H4. lia.
    - apply forallb_forall. intros i Hi. specialize (H5 i Hi). lia.
  Qed.

  Theorem full_ldl_ok : QdldlOk full_ldl.
  Proof.
    constructor.
    - intros n Ap Ai work Lnz etree H. apply etree_mem_inv in H. destruct H as (H1 & H2 & H3 & H4).
      cbn [q_etree full_ldl]. unfold full_etree. destruct (upperb n Ap Ai) eqn:U.
      + split; [reflexivity|]. split; [apply over_length; rewrite counts_length; lia|].
        split; [apply over_length; rewrite parents_length; lia|].
        split; [intro N; apply upperb_ok in U; contradiction|]. intros _.
        assert (F : firstn n (over (counts n) Lnz) = counts n).
        { unfold over. rewrite firstn_app, counts_length, Nat.sub_diag, firstn_O, app_nil_r.
          rewrite <- (counts_length n) at 1. apply firstn_all. }
        rewrite F. split; [|reflexivity]. intros i Hi. unfold ig. rewrite over_nth by (rewrite counts_length; exact Hi).
        rewrite counts_nth by exact Hi. lia.
      + do 3 (split; [reflexivity|]). split; [reflexivity|]. intro N. apply upperb_ok in N. congruence.
    - intros n Ap Ai work1 work2 Lnz1 Lnz2 etree1 etree2 _ _ L1 L2 E1 E2.
      cbn [q_etree full_ldl]. unfold full_etree. destruct (upperb n Ap Ai).
      + split; [reflexivity|]. intros _. rewrite !over_exact by (rewrite ?counts_length, ?parents_length; lia).
        split; reflexivity.
      + split; [reflexivity|]. intro. lia.
    - intros n Ap Ai Ax Lp Li Lx D Dinv Lnz etree bwork iwork fwork H. apply full_mem in H.
      destruct H as (H1 & H2 & H3 & H4 & H5 & H6 & H7 & H8 & H9).
      cbn [q_factor full_ldl]. unfold full_factor. rewrite H8.
      assert (OL : length (over (offsets 0 (counts n)) Lp) = length Lp).
      { apply over_length. rewrite offsets_length, counts_length. lia. }
      assert (CC : ccs_mem n (over (offsets 0 (counts n)) Lp) (repeat 0 (length Li)) = true).
      { assert (N : forall i, (i <= n)%nat -> ig (over (offsets 0 (counts n)) Lp) i = nth i (offsets 0 (counts n)) 0).
        { intros i Hi. unfold ig. apply over_nth. rewrite offsets_length, counts_length. lia. }
        apply ccs_mem_intro.
        - rewrite OL. lia.
        - rewrite N by lia. apply offsets_first.
        - intros j Hj. rewrite !N by lia. rewrite offsets_step by (rewrite counts_length; exact Hj).
          rewrite counts_nth by exact Hj. lia.
        - rewrite N by lia. rewrite <- (counts_length n) at 1. rewrite offsets_last. unfold len in *. rewrite repeat_length. lia.
        - intros i Hi. apply repeat_spec in Hi. lia. }
      destruct (ldl_rows O _ n 0 [] []) as [[rows d]|] eqn:E.
      + apply ldl_rows_shape in E; [|split; [reflexivity|intros; lia]|reflexivity]. destruct E as [U Ld].
        cbn [Nat.add] in U, Ld. destruct (unit_removelast n rows U) as (_ & _ & U3). unfold len in U3, H4.
        split; [exact OL|]. split; [apply repeat_length|]. split; [apply over_length; lia|].
        split; [apply over_length; lia|]. split; [apply over_length; rewrite map_length; lia|].
        do 3 (split; [reflexivity|]). intros _. exact CC.
      + split; [exact OL|]. split; [apply repeat_length|]. do 6 (split; [reflexivity|]). intros _. exact CC.
    - intros n Ap Ai Ax Lnz etree Lp1 Li1 Lx1 D1 Dinv1 bwork1 iwork1 fwork1 Lp2 Li2 Lx2 D2 Dinv2 bwork2 iwork2 fwork2.
      intros M1 M2 N1 N2 N3 N4 N5 N6 N7 N8 N9 N10 N11. apply full_mem in M1. apply full_mem in M2.
      destruct M1 as (_ & _ & _ & _ & _ & _ & _ & F & _). clear M2.
      assert (Z1 : zsum Lnz = zsum (counts n)).
      { rewrite <- F. f_equal. symmetry. apply firstn_all2. unfold len in N1. lia. }
      rewrite Z1 in *. unfold len in *. cbn [q_factor full_ldl]. unfold full_factor. rewrite F.
      rewrite !(over_exact (offsets 0 (counts n))) by (rewrite offsets_length, counts_length; lia).
      replace (length Li2) with (length Li1) by lia.
      destruct (ldl_rows O _ n 0 [] []) as [[rows d]|] eqn:E.
      + apply ldl_rows_shape in E; [|split; [reflexivity|intros; lia]|reflexivity]. destruct E as [U Ld].
        cbn [Nat.add] in U, Ld. destruct (unit_removelast n rows U) as (_ & _ & U3). unfold len in U3.
        split; [reflexivity|]. intros _. do 2 (split; [reflexivity|]).
        rewrite !(over_exact (concat _)) by lia. split; [reflexivity|].
        rewrite !(over_exact d) by lia. split; [reflexivity|].
        rewrite !(over_exact (map _ d)) by (rewrite map_length; lia). reflexivity.
      + split; [reflexivity|]. intro. lia.
    - intros n Lp Li Lx Dinv x H. apply solve_mem_inv in H. destruct H as (H1 & H2 & H3 & H4).
      cbn [q_solve full_ldl]. unfold full_solve.
      assert (B := bsub_len n (fun i j => vget O (nth i (full_rows n Lx) []) j)
        (tab n (fun i => o_mul O (vget O (fsub O (full_rows n Lx) x []) i) (vget O Dinv i))) []).
      cbn [length] in B. rewrite Nat.add_0_r in B.
      split; [apply over_length|apply over_skip; exact B]. unfold vec in *. lia.
  Qed.
End Inst.

Lemma val_sym_R Ap Ai Ax i j : val_sym Rops Ap Ai Ax i j = upper_sym (entry Ap Ai Ax) i j.
Proof. reflexivity. Qed.

Lemma pivot_nonzero n K : symmetric n K -> factorizable n K ->
  forall r y, (r < n)%nat -> (forall s, (s < r)%nat -> rsum r (fun j => K s j * y j) = K r s)%R ->
    (K r r - rsum r (fun j => K r j * y j) <> 0)%R.
Proof.
  intros Sy F r y Hr Hy E.
  set (x := fun i => if Nat.eqb i r then (-1)%R else y i).
  assert (X : forall i, (i < r)%nat -> x i = y i).
  { intros i Hi. unfold x. destruct (Nat.eqb_spec i r); [lia|reflexivity]. }
  assert (Xr : x r = (-1)%R) by (unfold x; rewrite Nat.eqb_refl; reflexivity).
  assert (Z0 : forall i, (i < S r)%nat -> x i = 0%R).
  { apply (F (S r) ltac:(lia)). intros i Hi. cbn [rsum]. rewrite Xr.
    rewrite (rsum_ext r _ (fun j => K i j * y j)%R) by (intros j Hj; rewrite X by exact Hj; reflexivity).
    destruct (Nat.eq_dec i r) as [->|Ne].
    - lra.
    - rewrite Hy by lia. rewrite (Sy i r) by lia. ring. }
  specialize (Z0 r ltac:(lia)). lra.
Qed.
Lemma upper_sym_sym e n : symmetric n (upper_sym e).
Proof.
  intros i j _ _. unfold upper_sym. destruct (Nat.leb_spec i j), (Nat.leb_spec j i); try lia; try reflexivity.
  replace j with i by lia. reflexivity.
Qed.

Lemma bsub_zero : forall n L b x, (forall i, (i < n)%nat -> rg b i = 0%R) -> (forall i, rg x i = 0%R) ->
  forall i, rg (bsub Rops L b n x) i = 0%R.
Proof.
  induction n as [|n IH]; intros L b x Hb Hx; [exact Hx|]. cbn [bsub]. apply IH.
  - intros i Hi. apply Hb. lia.
  - intros [|i]; [|apply Hx]. cbn [vget nth]. cbn [o_div o_sub o_dot Rops].
    rewrite Rdot_rsum by apply tab_length. rewrite rsum_zero by (intros k Hk; rewrite Hx; ring).
    specialize (Hb n ltac:(lia)). change (nth n b (o_zero Rops)) with (rg b n). rewrite Hb. unfold Rdiv. ring.
Qed.

Theorem full_ldl_exact : QdldlExact (full_ldl Rops).
Proof.
  constructor.
  - intros n Ap Ai Ax Lp Li Lx D Dinv Lnz etree bwork iwork fwork H _. apply full_mem in H.
    destruct H as (H1 & H2 & H3 & H4 & H5 & H6 & H7 & H8 & H9).
    cbn [q_factor full_ldl]. unfold full_factor.
    destruct (ldl_rows Rops (val_sym Rops Ap Ai Ax) n 0 [] []) as [[rows d]|] eqn:E; [|intro; lia].
    intros _ b Hb. assert (E2 := E).
    apply ldl_rows_sound in E; [|apply ldl_inv_nil]. cbn [Nat.add] in E.
    apply ldl_rows_shape in E2; [|split; [reflexivity|intros; lia]|reflexivity]. destruct E2 as [U Ld].
    cbn [Nat.add] in U, Ld. destruct (unit_removelast Rops n rows U) as (U1 & U2 & U3).
    cbn [q_solve full_ldl]. unfold full_solve.
    assert (FR : full_rows Rops n (over (concat (map (@removelast R) rows)) Lx) = rows).
    { unfold full_rows, over. rewrite <- (proj1 U) at 1. rewrite <- (map_length (@removelast R) rows) at 1.
      rewrite unpack_concat by exact U2. exact U1. }
    rewrite FR.
    assert (LR := proj1 E). destruct (low_fsub n rows b LR) as [F1 F2].
    set (y := fsub Rops rows b []) in *.
    set (z := tab n _).
    change (fun i j => rg (nth i rows []) j) with (Lof rows).
    destruct (low_bsub n rows z LR) as [B1 B2].
    intros i Hi.
    rewrite (rsum_ext n _ (fun j => val_sym Rops Ap Ai Ax i j * rg (bsub Rops (Lof rows) z n []) j)%R).
    2:{ intros j Hj. rewrite <- val_sym_R. f_equal. unfold vget. apply over_nth. unfold vec in *. lia. }
    revert i Hi.
    apply (schur n (val_sym Rops Ap Ai Ax) (Lof rows) (rg d) (rg y) (rg z)
             (rg (bsub Rops (Lof rows) z n [])) (rg b)).
    + apply ldl_full; [|exact E]. apply upper_sym_sym.
    + exact F2.
    + exact B2.
    + intros t Ht. unfold z. rewrite (vget_tab Rops) by exact Ht. cbn [o_mul o_div o_one Rops].
      assert (Dv : rg (over (map (fun e => 1 / e)%R d) Dinv) t = (1 / rg d t)%R).
      { unfold vget. rewrite over_nth by (rewrite map_length; lia).
        rewrite (nth_indep _ _ ((fun e => 1 / e)%R 0%R)) by (rewrite map_length; lia).
        rewrite (map_nth (fun e => 1 / e)%R). reflexivity. }
      rewrite Dv. field. apply E. exact Ht.
  - intros n Ap Ai Ax Lp Li Lx D Dinv Lnz etree bwork iwork fwork H _ F.
    cbn [q_factor full_ldl]. unfold full_factor.
    assert (X := ldl_rows_complete n (val_sym Rops Ap Ai Ax) 0 [] [] (ldl_inv_nil _) (upper_sym_sym _ _)
      (pivot_nonzero n _ (upper_sym_sym _ n) F)).
    destruct (ldl_rows Rops (val_sym Rops Ap Ai Ax) n 0 [] []) as [[rows d]|]; [|contradiction].
    cbn [fst]. unfold len. lia.
  - intros n Lp Li Lx Dinv b H Hp Hd i Hi. apply solve_mem_inv in H. destruct H as (H1 & H2 & H3 & H4).
    cbn [q_solve full_ldl]. unfold full_solve.
    set (z := tab n _). unfold vget at 1.
    rewrite over_nth by (rewrite bsub_len; cbn; lia).
    apply (bsub_zero n _ z []).
    + intros k Hk. unfold z. rewrite (vget_tab Rops) by exact Hk. rewrite Hd by exact Hk. cbn [o_mul Rops]. ring.
    + intro k. apply rg_over. cbn. lia.
Qed.
Print Assumptions full_ldl_exact.
