(* C67: MatrixSequence objects are values (copies are deep), views follow the storage of the
   sequence they were made of, and what a moved-from sequence is. *)
From Verif Require Import PropsApi PropsSeq.
From Verif Require Export SeqHeap.
Local Open Scope res_scope.

(* ---------- specification: a machine without pointers ---------- *)
Section Values.
  Context {T : Type} (O : Ops T).

  (* what a view shows: nothing (null), a given sequence as it is now, or freed memory *)
  Inductive referent : Type := RNull | ROf (x : nat) | RGone.
  Record vmap : Type := mkVM { vm_N : Z; vm_nr : Z; vm_nc : Z; vm_nel : Z; vm_ref : referent }.
  (* each name simply holds its value; vb_store: it has storage (it may be referred to) *)
  Record vseq : Type := mkVS { vs_val : mseq T; vs_store : bool }.
  Record vst : Type := mkV { v_seq : nat -> option vseq; v_map : nat -> option vmap }.
  Definition value_init : vst := mkV (fun _ => None) (fun _ => None).

  Definition nonempty (l : list T) : bool := match l with [] => false | _ => true end.
  Definition emptied (s : mseq T) : mseq T := mkMseq (ms_N s) (ms_nr s) (ms_nc s) (ms_nel s) [].
  (* all views of a sequence start showing what f says *)
  Definition retarget (f : nat -> referent) (m : nat -> option vmap) : nat -> option vmap :=
    fun n => match m n with
             | Some w => Some (mkVM (vm_N w) (vm_nr w) (vm_nc w) (vm_nel w)
                                    (match vm_ref w with ROf x => f x | r => r end))
             | None => None
             end.
  Definition vset (v : vst) (x : nat) (s : option vseq) : vst := mkV (setf (v_seq v) x s) (v_map v).
  Definition vsetm (v : vst) (m : nat) (w : option vmap) : vst := mkV (v_seq v) (setf (v_map v) m w).
  Definition lost (x : nat) : nat -> referent := fun z => if (z =? x)%nat then RGone else ROf z.

  Definition vexec (c : op (T:=T)) (v : vst) : res vst :=
    match c with
    | SeqDefault x => unused (v_seq v) x ;; Ok (vset v x (Some (mkVS mseq_default false)))
    | SeqNew x len nr nc =>
        unused (v_seq v) x ;; s <- mseq_new O len nr nc ;; Ok (vset v x (Some (mkVS s (nonempty (ms_data s)))))
    | SeqCopy x y =>
        unused (v_seq v) x ;; s <- live (v_seq v) y ;;
        Ok (vset v x (Some (mkVS (vs_val s) (nonempty (ms_data (vs_val s))))))
    | SeqAssign reuse x y =>
        t <- live (v_seq v) x ;; s <- live (v_seq v) y ;;
        if (x =? y)%nat then Ok v
        else if vs_store t && reuse then Ok (vset v x (Some (mkVS (vs_val s) true)))
        else Ok (mkV (setf (v_seq v) x (Some (mkVS (vs_val s) (nonempty (ms_data (vs_val s))))))
                     (retarget (lost x) (v_map v)))
    | SeqMove x y =>
        unused (v_seq v) x ;; s <- live (v_seq v) y ;;
        Ok (mkV (setf (setf (v_seq v) x (Some s)) y (Some (mkVS (emptied (vs_val s)) false)))
                (retarget (fun z => if (z =? y)%nat then ROf x else ROf z) (v_map v)))
    | SeqMoveAssign x y =>
        t <- live (v_seq v) x ;; s <- live (v_seq v) y ;;
        ub_unless (negb (x =? y)%nat) UBDangling ;;
        Ok (mkV (setf (setf (v_seq v) x (Some s)) y (Some (mkVS (emptied (vs_val s)) false)))
                (retarget (fun z => if (z =? x)%nat then RGone else if (z =? y)%nat then ROf x else ROf z) (v_map v)))
    | SeqWrite x k i j a =>
        s <- live (v_seq v) x ;; s' <- mseq_write (vs_val s) k i j a ;;
        Ok (vset v x (Some (mkVS s' (vs_store s))))
    | SeqDrop x =>
        s <- live (v_seq v) x ;; Ok (mkV (setf (v_seq v) x None) (retarget (lost x) (v_map v)))
    | MapDefault m => unused (v_map v) m ;; Ok (vsetm v m (Some (mkVM 0 1 1 0 RNull)))
    | MapOf m x =>
        unused (v_map v) m ;; s <- live (v_seq v) x ;;
        let a := vs_val s in
        Ok (vsetm v m (Some (mkVM (ms_N a) (ms_nr a) (ms_nc a) (ms_N a * ms_nr a * ms_nc a)
                                  (if vs_store s then ROf x else RNull))))
    | MapCopy m w => unused (v_map v) m ;; o <- live (v_map v) w ;; Ok (vsetm v m (Some o))
    | MapAssign m w => _ <- live (v_map v) m ;; o <- live (v_map v) w ;; Ok (vsetm v m (Some o))
    | MapDrop m => _ <- live (v_map v) m ;; Ok (vsetm v m None)
    end.

  Fixpoint vrun (cs : list op) (v : vst) : res vst :=
    match cs with
    | [] => Ok v
    | c :: cs' => match vexec c v with
                  | Ok v' => vrun cs' v' | Throw _ => vrun cs' v | UB u => UB u end
    end.

  Definition vseq_at (v : vst) (x : nat) (k : Z) : res (mat T) :=
    s <- live (v_seq v) x ;; mseq_at (vs_val s) k.
  Definition vmap_at (v : vst) (m : nat) (k : Z) : res (mat T) :=
    w <- live (v_map v) m ;;
    match vm_ref w with
    | RNull => mapseq_at (mkMap (vm_N w) (vm_nr w) (vm_nc w) (vm_nel w) None) k
    | ROf x => s <- live (v_seq v) x ;;
        mapseq_at (mkMap (vm_N w) (vm_nr w) (vm_nc w) (vm_nel w) (Some (ms_data (vs_val s)))) k
    | RGone => throw_unless (negb ((k <? 0)%Z || (vm_N w <=? k)%Z)) EIndex ;; UB UBDangling
    end.
  Definition vseq_dims (v : vst) (x : nat) : res (Z * Z * Z * Z) :=
    s <- live (v_seq v) x ;;
    Ok (ms_N (vs_val s), ms_nr (vs_val s), ms_nc (vs_val s), ms_nel (vs_val s)).
  Definition vmap_dims (v : vst) (m : nat) : res (Z * Z * Z * Z) :=
    w <- live (v_map v) m ;; Ok (vm_N w, vm_nr w, vm_nc w, vm_nel w).
End Values.

(* ---------- proofs ---------- *)
Section Proofs.
  Context {T : Type} (O : Ops T).
  Notation hst := (@hst T). Notation vst := (@vst T). Notation op := (@op T).

  Definition seq_rel (st : hst) (a : option sobj) (b : option (vseq (T:=T))) : Prop :=
    match a, b with
    | None, None => True
    | Some o, Some s => value_of st o = Ok (vs_val s) /\
                        vs_store s = match sq_ptr o with None => false | Some _ => true end
    | _, _ => False
    end.
  Definition map_rel (st : hst) (a : option mobj) (b : option vmap) : Prop :=
    match a, b with
    | None, None => True
    | Some o, Some w =>
        mq_N o = vm_N w /\ mq_nr o = vm_nr w /\ mq_nc o = vm_nc w /\ mq_nel o = vm_nel w /\
        match vm_ref w with
        | RNull => mq_ptr o = None
        | ROf x => exists b o', mq_ptr o = Some b /\ h_seq st x = Some o' /\ sq_ptr o' = Some b
        | RGone => exists b, mq_ptr o = Some b /\ h_buf st b = None /\ (b < h_next st)%nat
        end
    | _, _ => False
    end.
  Record agree (st : hst) (v : vst) : Prop := {
    ag_seq : forall x, seq_rel st (h_seq st x) (v_seq v x);
    ag_map : forall m, map_rel st (h_map st m) (v_map v m);
    ag_inj : forall x x' o o' b, h_seq st x = Some o -> h_seq st x' = Some o' ->
             sq_ptr o = Some b -> sq_ptr o' = Some b -> x = x';
    ag_own : forall b d, h_buf st b = Some d -> exists x o, h_seq st x = Some o /\ sq_ptr o = Some b;
    ag_new : forall b, (h_next st <= b)%nat -> h_buf st b = None }.

  Lemma agree_init : agree heap_init value_init.
  Proof. constructor; cbn; intros; try discriminate; auto. Qed.

  Lemma setf_eq {A} (f : nat -> option A) n a : setf f n a n = a.
  Proof. unfold setf. rewrite Nat.eqb_refl. reflexivity. Qed.
  Lemma setf_neq {A} (f : nat -> option A) n a m : m <> n -> setf f n a m = f m.
  Proof. intro H. unfold setf. rewrite (proj2 (Nat.eqb_neq m n) H). reflexivity. Qed.

  Lemma value_some (st : hst) o s : value_of st o = Ok s ->
    s = mkMseq (sq_N o) (sq_nr o) (sq_nc o) (sq_nel o) (ms_data s) /\
    contents st o = Ok (ms_data s).
  Proof.
    unfold value_of. destruct (contents st o); try discriminate. cbn. intros [= <-]. auto.
  Qed.
  Lemma value_none (st : hst) o s : value_of st o = Ok s -> sq_ptr o = None -> ms_data s = [].
  Proof. intros H E. apply value_some in H. destruct H as [_ H]. unfold contents in H. rewrite E in H. congruence. Qed.
  Lemma value_buf (st : hst) o s b : value_of st o = Ok s -> sq_ptr o = Some b -> h_buf st b = Some (ms_data s).
  Proof.
    intros H E. apply value_some in H. destruct H as [_ H]. unfold contents, live in H. rewrite E in H.
    destruct (h_buf st b); congruence.
  Qed.
  Lemma value_mk (st : hst) o s :
    s = mkMseq (sq_N o) (sq_nr o) (sq_nc o) (sq_nel o) (ms_data s) ->
    match sq_ptr o with None => ms_data s = [] | Some b => h_buf st b = Some (ms_data s) end ->
    value_of st o = Ok s.
  Proof.
    intros E H. unfold value_of, contents, live. destruct (sq_ptr o).
    - rewrite H. cbn. rewrite <- E. reflexivity.
    - cbn. rewrite H in E. rewrite <- E. reflexivity.
  Qed.

  Lemma unused_rel (st : hst) v x : agree st v -> unused (h_seq st) x = unused (v_seq v) x.
  Proof.
    intro A. pose proof (ag_seq _ _ A x) as H. unfold unused, seq_rel in *.
    destruct (h_seq st x), (v_seq v x); tauto.
  Qed.
  Lemma unusedm_rel (st : hst) v x : agree st v -> unused (h_map st) x = unused (v_map v) x.
  Proof.
    intro A. pose proof (ag_map _ _ A x) as H. unfold unused, map_rel in *.
    destruct (h_map st x), (v_map v x); tauto.
  Qed.
  Lemma unused_ok {A} (f : nat -> option A) x : unused f x = Ok tt -> f x = None.
  Proof. unfold unused. destruct (f x); [discriminate|reflexivity]. Qed.

  Lemma live_rel (st : hst) v x : agree st v ->
    (exists o s, live (h_seq st) x = Ok o /\ live (v_seq v) x = Ok s /\ h_seq st x = Some o /\ v_seq v x = Some s /\
       value_of st o = Ok (vs_val s) /\ vs_store s = match sq_ptr o with None => false | Some _ => true end) \/
    (live (h_seq st) x = UB UBDangling /\ live (v_seq v) x = UB UBDangling).
  Proof.
    intro A. pose proof (ag_seq _ _ A x) as H. unfold live, seq_rel in *.
    destruct (h_seq st x) as [o|], (v_seq v x) as [s|]; try tauto.
    left. exists o, s. tauto.
  Qed.
  Lemma livem_rel (st : hst) v x : agree st v ->
    (exists o w, live (h_map st) x = Ok o /\ live (v_map v) x = Ok w /\ map_rel st (Some o) (Some w)) \/
    (live (h_map st) x = UB UBDangling /\ live (v_map v) x = UB UBDangling).
  Proof.
    intro A. pose proof (ag_map _ _ A x) as H. unfold live.
    destruct (h_map st x) as [o|], (v_map v x) as [s|]; try (cbn in H; tauto).
    left. exists o, s. auto.
  Qed.

  Definition sim (a : res hst) (b : res vst) : Prop :=
    match a, b with
    | Ok st, Ok v => agree st v
    | Throw e, Throw e' => e = e'
    | UB u, UB u' => u = u'
    | _, _ => False
    end.

  (* a map put in both machines *)
  Lemma put_map_agree st v m o w : agree st v -> map_rel st o w ->
    agree (put_map st m o) (vsetm v m w).
  Proof.
    intros A H. constructor; cbn [put_map vsetm h_seq h_map h_buf h_next v_seq v_map].
    - intro x. exact (ag_seq _ _ A x).
    - intro n. destruct (Nat.eq_dec n m) as [->|N]; [rewrite !setf_eq|rewrite !setf_neq by exact N].
      + exact H.
      + exact (ag_map _ _ A n).
    - exact (ag_inj _ _ A).
    - exact (ag_own _ _ A).
    - exact (ag_new _ _ A).
  Qed.

  (* x, holding nothing, is given a vector of its own with the elements of s *)
  Lemma fresh_agree st v x s : agree st v -> h_seq st x = None ->
    let '(st', p) := alloc st (ms_data s) in
    agree (put_seq st' x (Some (mkSq (ms_N s) (ms_nr s) (ms_nc s) (ms_nel s) p)))
          (vset v x (Some (mkVS s (nonempty (ms_data s))))).
  Proof.
    intros A E. unfold alloc. destruct (ms_data s) as [|d0 d] eqn:ED.
    - constructor; cbn [put_seq vset h_seq h_map h_buf h_next v_seq v_map].
      + intro z. destruct (Nat.eq_dec z x) as [->|N]; [rewrite !setf_eq|rewrite !setf_neq by exact N].
        * cbn. split; [|reflexivity]. rewrite <- ED. destruct s; reflexivity.
        * exact (ag_seq _ _ A z).
      + intro m. pose proof (ag_map _ _ A m) as H. unfold map_rel in *. cbn [put_seq h_seq h_buf h_next].
        destruct (h_map st m), (v_map v m) as [w|]; auto. destruct H as (H1 & H2 & H3 & H4 & H).
        repeat (split; [assumption|]). destruct (vm_ref w); auto.
        destruct H as (b & o' & B1 & B2 & B3). exists b, o'. split; [exact B1|]. split; [|exact B3].
        rewrite setf_neq; [exact B2|]. intros ->. congruence.
      + intros y y' o o' b. destruct (Nat.eq_dec y x) as [->|N]; [rewrite setf_eq|rewrite setf_neq by exact N].
        * intros [= <-] _ [=].
        * destruct (Nat.eq_dec y' x) as [->|N']; [rewrite setf_eq|rewrite setf_neq by exact N'].
          -- intros _ [= <-] _ [=].
          -- exact (ag_inj _ _ A y y' o o' b).
      + intros b d H. destruct (ag_own _ _ A b d H) as (y & o & H1 & H2). exists y, o.
        split; [|exact H2]. rewrite setf_neq; [exact H1|]. intros ->. congruence.
      + exact (ag_new _ _ A).
    - assert (FR : forall y o b, h_seq st y = Some o -> sq_ptr o = Some b -> b <> h_next st).
      { intros y o b H1 H2 ->. pose proof (ag_seq _ _ A y) as H. unfold seq_rel in H. rewrite H1 in H.
        destruct (v_seq v y) as [s'|]; [|tauto]. destruct H as [H _].
        pose proof (value_buf _ _ _ _ H H2) as H3. rewrite (ag_new _ _ A (h_next st)) in H3 by lia. discriminate. }
      constructor; cbn [put_seq vset h_seq h_map h_buf h_next v_seq v_map].
      + intro z. destruct (Nat.eq_dec z x) as [->|N]; [rewrite !setf_eq|rewrite !setf_neq by exact N].
        * cbn. split; [|reflexivity]. apply value_mk; cbn [sq_N sq_nr sq_nc sq_nel sq_ptr h_buf put_seq]; [destruct s; reflexivity|].
          rewrite setf_eq. f_equal. symmetry. exact ED.
        * pose proof (ag_seq _ _ A z) as H. unfold seq_rel in *.
          destruct (h_seq st z) as [o|] eqn:Ez, (v_seq v z) as [s'|]; auto. destruct H as [H1 H2].
          split; [|exact H2]. pose proof (value_some _ _ _ H1) as [H3 _]. apply value_mk; [exact H3|].
          destruct (sq_ptr o) as [b|] eqn:Eb; [|exact (value_none _ _ _ H1 Eb)]. cbn [h_buf put_seq].
          rewrite setf_neq by exact (FR _ _ _ Ez Eb). exact (value_buf _ _ _ _ H1 Eb).
      + intro m. pose proof (ag_map _ _ A m) as H. unfold map_rel in *. cbn [put_seq h_seq h_buf h_next].
        destruct (h_map st m), (v_map v m) as [w|]; auto. destruct H as (H1 & H2 & H3 & H4 & H).
        repeat (split; [assumption|]). destruct (vm_ref w); auto.
        * destruct H as (b & o' & B1 & B2 & B3). exists b, o'. split; [exact B1|]. split; [|exact B3].
          rewrite setf_neq; [exact B2|]. intros ->. congruence.
        * destruct H as (b & B1 & B2 & B3). exists b. split; [exact B1|]. rewrite setf_neq by lia. split; [exact B2|lia].
      + intros y y' o o' b. destruct (Nat.eq_dec y x) as [->|N]; [rewrite setf_eq|rewrite setf_neq by exact N].
        * destruct (Nat.eq_dec y' x) as [->|N']; [auto|rewrite setf_neq by exact N'].
          intros [= <-] H [= <-] H'. exfalso. exact (FR _ _ _ H H' eq_refl).
        * destruct (Nat.eq_dec y' x) as [->|N']; [rewrite setf_eq|rewrite setf_neq by exact N'].
          -- intros H [= <-] H' [= <-]. exfalso. exact (FR _ _ _ H H' eq_refl).
          -- exact (ag_inj _ _ A y y' o o' b).
      + intros b d'. destruct (Nat.eq_dec b (h_next st)) as [->|N]; [rewrite setf_eq|rewrite setf_neq by exact N].
        * intros _. eexists x, _. rewrite setf_eq. split; reflexivity.
        * intro H. destruct (ag_own _ _ A b d' H) as (y & o & H1 & H2). exists y, o.
          split; [|exact H2]. rewrite setf_neq; [exact H1|]. intros ->. congruence.
      + intros b H. rewrite setf_neq by lia. apply (ag_new _ _ A). lia.
  Qed.

  (* x is destroyed *)
  Lemma drop_agree st v x o : agree st v -> h_seq st x = Some o ->
    agree (put_seq (free st (sq_ptr o)) x None) (mkV (setf (v_seq v) x None) (retarget (lost x) (v_map v))).
  Proof.
    intros A E.
    assert (DJ : forall z o' b, z <> x -> h_seq st z = Some o' -> sq_ptr o' = Some b -> sq_ptr o <> Some b).
    { intros z o' b N H1 H2 H3. apply N. exact (ag_inj _ _ A z x o' o b H1 E H2 H3). }
    assert (FB : forall b, h_buf (free st (sq_ptr o)) b = if (match sq_ptr o with Some b' => (b =? b')%nat | None => false end) then None else h_buf st b).
    { intro b. destruct (sq_ptr o) as [b'|]; cbn [free h_buf]; [|reflexivity]. reflexivity. }
    assert (FS : h_seq (free st (sq_ptr o)) = h_seq st) by (destruct (sq_ptr o); reflexivity).
    assert (FM : h_map (free st (sq_ptr o)) = h_map st) by (destruct (sq_ptr o); reflexivity).
    assert (FN : h_next (free st (sq_ptr o)) = h_next st) by (destruct (sq_ptr o); reflexivity).
    assert (FK : forall b, sq_ptr o <> Some b -> h_buf (free st (sq_ptr o)) b = h_buf st b).
    { intros b H. rewrite FB. destruct (sq_ptr o) as [b'|]; [|reflexivity].
      destruct (Nat.eqb_spec b b'); [congruence|reflexivity]. }
    constructor; cbn [put_seq h_seq h_map h_buf h_next v_seq v_map]; rewrite ?FS, ?FM, ?FN.
    - intro z. destruct (Nat.eq_dec z x) as [->|N]; [rewrite !setf_eq; exact I|rewrite !setf_neq by exact N].
      pose proof (ag_seq _ _ A z) as H. unfold seq_rel in *.
      destruct (h_seq st z) as [o'|] eqn:Ez, (v_seq v z) as [s'|]; auto. destruct H as [H1 H2].
      split; [|exact H2]. pose proof (value_some _ _ _ H1) as [H3 _]. apply value_mk; [exact H3|].
      destruct (sq_ptr o') as [b|] eqn:Eb; [|exact (value_none _ _ _ H1 Eb)]. cbn [put_seq h_buf].
      rewrite FK by exact (DJ _ _ _ N Ez Eb). exact (value_buf _ _ _ _ H1 Eb).
    - intro m. pose proof (ag_map _ _ A m) as H. unfold map_rel, retarget in *. cbn [put_seq h_seq h_buf h_next].
      destruct (h_map st m) as [mo|], (v_map v m) as [w|]; auto. destruct H as (H1 & H2 & H3 & H4 & H).
      cbn [vm_N vm_nr vm_nc vm_nel vm_ref]. repeat (split; [assumption|]). destruct (vm_ref w) as [|z|]; auto.
      + destruct H as (b & o' & B1 & B2 & B3). unfold lost. destruct (Nat.eqb_spec z x) as [->|N].
        * rewrite E in B2. injection B2 as <-. exists b. split; [exact B1|].
          rewrite FN, FB, B3, Nat.eqb_refl. split; [reflexivity|].
          destruct (Nat.ltb_spec b (h_next st)) as [L|L]; [exact L|]. exfalso.
          pose proof (ag_seq _ _ A x) as H. unfold seq_rel in H. rewrite E in H.
          destruct (v_seq v x) as [s'|]; [|tauto]. destruct H as [H _].
          pose proof (value_buf _ _ _ _ H B3) as H5. rewrite (ag_new _ _ A b L) in H5. discriminate.
        * exists b, o'. rewrite FS, setf_neq by exact N. auto.
      + destruct H as (b & B1 & B2 & B3). exists b. rewrite FN, FB. split; [exact B1|]. split; [|exact B3].
        destruct (match sq_ptr o with Some b' => _ | None => _ end); [reflexivity|exact B2].
    - intros y y' o1 o2 b. destruct (Nat.eq_dec y x) as [->|N]; [rewrite setf_eq; discriminate|rewrite setf_neq by exact N].
      destruct (Nat.eq_dec y' x) as [->|N']; [rewrite setf_eq; discriminate|rewrite setf_neq by exact N'].
      exact (ag_inj _ _ A y y' o1 o2 b).
    - intros b d H. rewrite FB in H.
      destruct (match sq_ptr o with Some b' => (b =? b')%nat | None => false end) eqn:EB; [discriminate|].
      destruct (ag_own _ _ A b d H) as (y & o' & H1 & H2). exists y, o'. split; [|exact H2].
      rewrite setf_neq; [exact H1|]. intros ->. rewrite E in H1. injection H1 as <-.
      rewrite H2, Nat.eqb_refl in EB. discriminate.
    - intros b H. rewrite FB. destruct (match sq_ptr o with Some b' => _ | None => _ end); [reflexivity|].
      exact (ag_new _ _ A b H).
  Qed.

  (* x, holding nothing, takes over the vector of y *)
  Lemma move_agree st v x y o s : agree st v -> h_seq st x = None -> h_seq st y = Some o -> v_seq v y = Some s ->
    agree (put_seq (put_seq st x (Some o)) y (Some (mkSq (sq_N o) (sq_nr o) (sq_nc o) (sq_nel o) None)))
          (mkV (setf (setf (v_seq v) x (Some s)) y (Some (mkVS (emptied (vs_val s)) false)))
               (retarget (fun z => if (z =? y)%nat then ROf x else ROf z) (v_map v))).
  Proof.
    intros A Ex Ey Es. assert (NE : x <> y) by congruence.
    pose proof (ag_seq _ _ A y) as Hy. unfold seq_rel in Hy. rewrite Ey, Es in Hy. destruct Hy as [V1 V2].
    pose proof (value_some _ _ _ V1) as [V3 _].
    constructor; cbn [put_seq h_seq h_map h_buf h_next v_seq v_map].
    - intro z. destruct (Nat.eq_dec z y) as [->|N]; [rewrite !setf_eq|rewrite !(setf_neq _ y) by exact N].
      + cbn [seq_rel]. split; [|reflexivity]. unfold value_of, contents; cbn. unfold emptied. rewrite V3. reflexivity.
      + destruct (Nat.eq_dec z x) as [->|N']; [rewrite !setf_eq|rewrite !setf_neq by exact N'].
        * cbn. split; [|exact V2]. exact V1.
        * exact (ag_seq _ _ A z).
    - intro m. pose proof (ag_map _ _ A m) as H. unfold map_rel, retarget in *. cbn [put_seq h_seq h_buf h_next].
      destruct (h_map st m) as [mo|], (v_map v m) as [w|]; auto. destruct H as (H1 & H2 & H3 & H4 & H).
      cbn [vm_N vm_nr vm_nc vm_nel vm_ref]. repeat (split; [assumption|]). destruct (vm_ref w) as [|z|]; auto.
      destruct H as (b & o' & B1 & B2 & B3). destruct (Nat.eqb_spec z y) as [->|N].
      + exists b, o'. rewrite setf_neq, setf_eq by exact NE. split; [exact B1|]. split; [congruence|exact B3].
      + exists b, o'. rewrite !setf_neq by (try exact N; intros ->; congruence). auto.
    - intros z z' o1 o2 b.
      destruct (Nat.eq_dec z y) as [->|N]; [rewrite setf_eq; intros [= <-] _ [=]|rewrite (setf_neq _ y) by exact N].
      destruct (Nat.eq_dec z' y) as [->|N']; [rewrite setf_eq; intros _ [= <-] _ [=]|rewrite (setf_neq _ y) by exact N'].
      destruct (Nat.eq_dec z x) as [->|M]; [rewrite setf_eq|rewrite (setf_neq _ x) by exact M];
      (destruct (Nat.eq_dec z' x) as [->|M']; [rewrite setf_eq|rewrite (setf_neq _ x) by exact M']); auto.
      + intros [= <-] H1 H2 H3. exfalso. apply N'. symmetry. exact (ag_inj _ _ A y z' o o2 b Ey H1 H2 H3).
      + intros H1 [= <-] H2 H3. exfalso. apply N. exact (ag_inj _ _ A z y o1 o b H1 Ey H2 H3).
      + exact (ag_inj _ _ A z z' o1 o2 b).
    - intros b d H. destruct (ag_own _ _ A b d H) as (z & o' & H1 & H2).
      destruct (Nat.eq_dec z y) as [->|N].
      + exists x, o. rewrite setf_neq, setf_eq by exact NE. split; [reflexivity|]. congruence.
      + exists z, o'. rewrite !setf_neq by (try exact N; intros ->; congruence). auto.
    - exact (ag_new _ _ A).
  Qed.

  (* the elements of x are overwritten in place (and its sizes set) *)
  Lemma poke_agree st v x o s b s' : agree st v -> h_seq st x = Some o -> v_seq v x = Some s -> sq_ptr o = Some b ->
    agree (put_seq (put_buf st (Some b) (ms_data s')) x (Some (mkSq (ms_N s') (ms_nr s') (ms_nc s') (ms_nel s') (Some b))))
          (vset v x (Some (mkVS s' true))).
  Proof.
    intros A E Es Eb.
    assert (DJ : forall z o' b', z <> x -> h_seq st z = Some o' -> sq_ptr o' = Some b' -> b' <> b).
    { intros z o' b' N H1 H2 ->. apply N. exact (ag_inj _ _ A z x o' o b H1 E H2 Eb). }
    constructor; cbn [put_seq put_buf vset h_seq h_map h_buf h_next v_seq v_map].
    - intro z. destruct (Nat.eq_dec z x) as [->|N]; [rewrite !setf_eq|rewrite !setf_neq by exact N].
      + cbn. split; [|reflexivity]. apply value_mk; cbn [sq_N sq_nr sq_nc sq_nel sq_ptr h_buf put_seq put_buf]; [destruct s'; reflexivity|].
        apply setf_eq.
      + pose proof (ag_seq _ _ A z) as H. unfold seq_rel in *.
        destruct (h_seq st z) as [o'|] eqn:Ez, (v_seq v z) as [s1|]; auto. destruct H as [H1 H2].
        split; [|exact H2]. pose proof (value_some _ _ _ H1) as [H3 _]. apply value_mk; [exact H3|].
        destruct (sq_ptr o') as [b'|] eqn:Eb'; [|exact (value_none _ _ _ H1 Eb')]. cbn [h_buf put_seq put_buf].
        rewrite setf_neq by exact (DJ _ _ _ N Ez Eb'). exact (value_buf _ _ _ _ H1 Eb').
    - intro m. pose proof (ag_map _ _ A m) as H. unfold map_rel in *. cbn [put_seq put_buf h_seq h_buf h_next].
      destruct (h_map st m) as [mo|], (v_map v m) as [w|]; auto. destruct H as (H1 & H2 & H3 & H4 & H).
      repeat (split; [assumption|]). destruct (vm_ref w) as [|z|]; auto.
      + destruct H as (b' & o' & B1 & B2 & B3). destruct (Nat.eq_dec z x) as [->|N].
        * eexists b', _. split; [exact B1|]. rewrite setf_eq. split; [reflexivity|]. cbn. congruence.
        * exists b', o'. rewrite setf_neq by exact N. auto.
      + destruct H as (b' & B1 & B2 & B3). exists b'. split; [exact B1|]. split; [|exact B3].
        rewrite setf_neq; [exact B2|]. intros ->.
        pose proof (ag_seq _ _ A x) as H. unfold seq_rel in H. rewrite E, Es in H. destruct H as [H _].
        pose proof (value_buf _ _ _ _ H Eb) as H5. congruence.
    - intros y y' o1 o2 b'. destruct (Nat.eq_dec y x) as [->|N]; [rewrite setf_eq|rewrite setf_neq by exact N];
      (destruct (Nat.eq_dec y' x) as [->|N']; [rewrite setf_eq|rewrite setf_neq by exact N']); auto.
      + intros [= <-] H [= <-] H'. exfalso. exact (DJ _ _ _ N' H H' eq_refl).
      + intros H [= <-] H' [= <-]. exfalso. exact (DJ _ _ _ N H H' eq_refl).
      + exact (ag_inj _ _ A y y' o1 o2 b').
    - intros b' d H. destruct (Nat.eq_dec b' b) as [->|N].
      + eexists x, _. rewrite setf_eq. split; reflexivity.
      + rewrite setf_neq in H by exact N. destruct (ag_own _ _ A b' d H) as (y & o' & H1 & H2).
        destruct (Nat.eq_dec y x) as [->|N']; [congruence|]. exists y, o'. rewrite setf_neq by exact N'. auto.
    - intros b' H. destruct (Nat.eq_dec b' b) as [->|N].
      + exfalso. pose proof (ag_seq _ _ A x) as H'. unfold seq_rel in H'. rewrite E, Es in H'. destruct H' as [H' _].
        pose proof (value_buf _ _ _ _ H' Eb) as H5. rewrite (ag_new _ _ A b H) in H5. discriminate.
      + rewrite setf_neq by exact N. exact (ag_new _ _ A b' H).
  Qed.

  (* pointwise equal machines *)
  Lemma agree_ext st v st' v' : agree st v ->
    (forall x, h_seq st' x = h_seq st x) -> (forall m, h_map st' m = h_map st m) ->
    (forall b, h_buf st' b = h_buf st b) -> h_next st' = h_next st ->
    (forall x, v_seq v' x = v_seq v x) -> (forall m, v_map v' m = v_map v m) -> agree st' v'.
  Proof.
    intros A E1 E2 E3 E4 E5 E6. constructor.
    - intro x. rewrite E1, E5. pose proof (ag_seq _ _ A x) as H. unfold seq_rel, value_of, contents, live in *.
      destruct (h_seq st x) as [o|], (v_seq v x); auto. destruct (sq_ptr o); rewrite ?E3; exact H.
    - intro m. rewrite E2, E6. pose proof (ag_map _ _ A m) as H. unfold map_rel in *.
      destruct (h_map st m) as [o|], (v_map v m) as [w|]; auto. destruct H as (H1 & H2 & H3 & H4 & H).
      repeat (split; [assumption|]). destruct (vm_ref w); auto.
      + destruct H as (b & o' & B1 & B2 & B3). exists b, o'. rewrite E1. auto.
      + destruct H as (b & B1 & B2 & B3). exists b. rewrite E3, E4. auto.
    - intros x x' o o' b. rewrite !E1. exact (ag_inj _ _ A x x' o o' b).
    - intros b d. rewrite E3. intro H. destruct (ag_own _ _ A b d H) as (x & o & H1 & H2). exists x, o. rewrite E1. auto.
    - intros b. rewrite E3, E4. exact (ag_new _ _ A b).
  Qed.

  Lemma write_shape (s s' : mseq T) k i j a : mseq_write s k i j a = Ok s' ->
    ms_data s <> [] /\ s' = mkMseq (ms_N s) (ms_nr s) (ms_nc s) (ms_nel s) (ms_data s').
  Proof.
    unfold mseq_write. intro E.
    apply rbind_ok in E. destruct E as ([] & E1 & E). apply rbind_ok in E. destruct E as (p & E3 & E).
    apply rbind_ok in E. destruct E as (q & E4 & E). apply rbind_ok in E. destruct E as ([] & E5 & E).
    apply rbind_ok in E. destruct E as ([] & E6 & E). injection E as <-. split; [|reflexivity].
    unfold ub_unless in E5, E6. destruct (_ && _)%bool eqn:R in E5; [|discriminate].
    destruct (_ <? _)%Z eqn:R2 in E6; [|discriminate]. apply Z.ltb_lt in R2.
    apply imul_ok in E3, E4. subst p q.
    apply throw_ok, negb_true_iff in E1. rewrite orb_false_iff, Z.ltb_ge, Z.leb_gt in E1.
    rewrite !andb_true_iff, !Z.leb_le, !Z.ltb_lt in R.
    intro ED. rewrite ED in R2. cbn in R2.
    assert (0 <= k * ms_nr s * ms_nc s)%Z by (apply Z.mul_nonneg_nonneg; [apply Z.mul_nonneg_nonneg|]; lia).
    assert (0 <= j * ms_nr s)%Z by (apply Z.mul_nonneg_nonneg; lia). lia.
  Qed.

  Lemma exec_sim c st v : agree st v -> sim (exec O c st) (vexec O c v).
  Proof.
    intro A. destruct c as [x|x len nr nc|x y|reuse x y|x y|x y|x k i j a|x|m|m x|m w|m w|m]; cbn [exec vexec].
    - rewrite (unused_rel _ _ _ A). destruct (unused (v_seq v) x) as [[]|e|u] eqn:U; cbn [rbind]; [|cbn; reflexivity..].
      rewrite <- (unused_rel _ _ _ A) in U. apply unused_ok in U. exact (fresh_agree st v x mseq_default A U).
    - rewrite (unused_rel _ _ _ A). destruct (unused (v_seq v) x) as [[]|e|u] eqn:U; cbn [rbind]; [|cbn; reflexivity..].
      rewrite <- (unused_rel _ _ _ A) in U. apply unused_ok in U.
      destruct (mseq_new O len nr nc) as [s|e|u]; cbn [rbind]; [|cbn; reflexivity..].
      pose proof (fresh_agree st v x s A U) as H. destruct (alloc st (ms_data s)) as [st' p]. exact H.
    - rewrite (unused_rel _ _ _ A). destruct (unused (v_seq v) x) as [[]|e|u] eqn:U; cbn [rbind]; [|cbn; reflexivity..].
      rewrite <- (unused_rel _ _ _ A) in U. apply unused_ok in U.
      destruct (live_rel st v y A) as [(o & s & E1 & E2 & E3 & E4 & V & B)|(E1 & E2)]; rewrite E1, E2; cbn [rbind]; [|cbn; reflexivity].
      destruct (value_some _ _ _ V) as [W1 W2]. rewrite W2. cbn [rbind].
      pose proof (fresh_agree st v x (vs_val s) A U) as H. destruct (alloc st (ms_data (vs_val s))) as [st' p].
      cbn [sim]. rewrite W1 in H at 1 2 3 4. exact H.
    - destruct (live_rel st v x A) as [(t & s1 & E1 & E2 & E3 & E4 & V & B)|(E1 & E2)]; rewrite E1, E2; cbn [rbind]; [|cbn; reflexivity].
      destruct (live_rel st v y A) as [(o & s & F1 & F2 & F3 & F4 & V' & B')|(F1 & F2)]; rewrite F1, F2; cbn [rbind]; [|cbn; reflexivity].
      destruct (value_some _ _ _ V') as [W1 W2]. rewrite W2. cbn [rbind].
      destruct (Nat.eqb_spec x y) as [->|N]; [exact A|]. rewrite B.
      assert (R : forall p, sq_ptr t = p ->
        sim (let '(st0, p') := alloc (free st p) (ms_data (vs_val s)) in
             Ok (put_seq st0 x (Some (mkSq (sq_N o) (sq_nr o) (sq_nc o) (sq_nel o) p'))))
            (Ok (mkV (setf (v_seq v) x (Some (mkVS (vs_val s) (nonempty (ms_data (vs_val s))))))
                     (retarget (lost x) (v_map v))))).
      { intros p Ep. pose proof (drop_agree st v x t A E3) as D1. rewrite Ep in D1.
        assert (U : h_seq (put_seq (free st p) x None) x = None) by (cbn; apply setf_eq).
        pose proof (fresh_agree _ _ x (vs_val s) D1 U) as H. unfold alloc in *.
        cbn [put_seq h_buf h_next h_seq h_map] in H.
        destruct (ms_data (vs_val s)) as [|d0 d] eqn:ED; cbn [sim];
          (eapply agree_ext; [exact H|..]); cbn [put_seq vset v_seq v_map h_buf h_next h_seq h_map]; try reflexivity;
          intro z; unfold setf; destruct (Nat.eqb_spec z x); try reflexivity; rewrite W1; reflexivity. }
      destruct (sq_ptr t) as [b|] eqn:Ep; [destruct reuse|]; cbn [andb].
      + cbn [sim]. pose proof (poke_agree st v x t s1 b (vs_val s) A E3 E4 Ep) as H. rewrite W1 in H at 2 3 4 5. exact H.
      + exact (R _ eq_refl).
      + exact (R _ eq_refl).
    - rewrite (unused_rel _ _ _ A). destruct (unused (v_seq v) x) as [[]|e|u] eqn:U; cbn [rbind]; [|cbn; reflexivity..].
      rewrite <- (unused_rel _ _ _ A) in U. apply unused_ok in U.
      destruct (live_rel st v y A) as [(o & s & E1 & E2 & E3 & E4 & V & B)|(E1 & E2)]; rewrite E1, E2; cbn [rbind]; [|cbn; reflexivity].
      exact (move_agree st v x y o s A U E3 E4).
    - destruct (live_rel st v x A) as [(t & s1 & E1 & E2 & E3 & E4 & V & B)|(E1 & E2)]; rewrite E1, E2; cbn [rbind]; [|cbn; reflexivity].
      destruct (live_rel st v y A) as [(o & s & F1 & F2 & F3 & F4 & V' & B')|(F1 & F2)]; rewrite F1, F2; cbn [rbind]; [|cbn; reflexivity].
      destruct (Nat.eqb_spec x y) as [->|N]; cbn [negb ub_unless rbind]; [cbn; reflexivity|].
      pose proof (drop_agree st v x t A E3) as D1.
      assert (FS : h_seq (free st (sq_ptr t)) = h_seq st) by (destruct (sq_ptr t); reflexivity).
      assert (U : h_seq (put_seq (free st (sq_ptr t)) x None) x = None) by (cbn; apply setf_eq).
      assert (Y : h_seq (put_seq (free st (sq_ptr t)) x None) y = Some o)
        by (cbn [put_seq h_seq]; rewrite setf_neq, FS by congruence; exact F3).
      assert (Y' : setf (v_seq v) x None y = Some s) by (rewrite setf_neq by congruence; exact F4).
      pose proof (move_agree _ _ x y o s D1 U Y Y') as H. cbn [sim].
      eapply agree_ext; [exact H|..]; cbn [put_seq v_seq v_map h_buf h_next h_seq h_map]; try reflexivity;
        intro z; unfold setf, retarget, lost.
      + destruct (Nat.eqb_spec z y); [reflexivity|]. destruct (Nat.eqb_spec z x); reflexivity.
      + destruct (Nat.eqb_spec z y); [reflexivity|]. destruct (Nat.eqb_spec z x); reflexivity.
      + destruct (v_map v z) as [w|]; [|reflexivity]. cbn [vm_N vm_nr vm_nc vm_nel vm_ref].
        destruct (vm_ref w) as [|z'|]; try reflexivity. destruct (Nat.eqb_spec z' x); [|reflexivity]. reflexivity.
    - destruct (live_rel st v x A) as [(o & s & E1 & E2 & E3 & E4 & V & B)|(E1 & E2)]; rewrite E1, E2; cbn [rbind]; [|cbn; reflexivity].
      rewrite V. cbn [rbind]. destruct (mseq_write (vs_val s) k i j a) as [s'|e|u] eqn:EW; cbn [rbind]; [|cbn; reflexivity..].
      destruct (write_shape _ _ _ _ _ _ EW) as [NE SH].
      destruct (value_some _ _ _ V) as [W1 W2].
      destruct (sq_ptr o) as [b|] eqn:Ep; [|exfalso; apply NE; exact (value_none _ _ _ V Ep)].
      rewrite B. cbn [sim]. pose proof (poke_agree st v x o s b s' A E3 E4 Ep) as H.
      eapply agree_ext; [exact H|..]; cbn [put_seq put_buf v_seq v_map h_buf h_next h_seq h_map]; try reflexivity.
      intro z. unfold setf. destruct (Nat.eqb_spec z x) as [->|]; [|reflexivity].
      rewrite E3, SH, W1. cbn. destruct o; cbn in *; congruence.
    - destruct (live_rel st v x A) as [(o & s & E1 & E2 & E3 & E4 & V & B)|(E1 & E2)]; rewrite E1, E2; cbn [rbind]; [|cbn; reflexivity].
      exact (drop_agree st v x o A E3).
    - rewrite (unusedm_rel _ _ _ A). destruct (unused (v_map v) m) as [[]|e|u]; cbn [rbind]; [|cbn; reflexivity..].
      apply put_map_agree; [exact A|]. cbn. auto 10.
    - rewrite (unusedm_rel _ _ _ A). destruct (unused (v_map v) m) as [[]|e|u]; cbn [rbind]; [|cbn; reflexivity..].
      destruct (live_rel st v x A) as [(o & s & E1 & E2 & E3 & E4 & V & B)|(E1 & E2)]; rewrite E1, E2; cbn [rbind]; [|cbn; reflexivity].
      destruct (value_some _ _ _ V) as [W1 W2]. cbv zeta. cbn [sim]. apply put_map_agree; [exact A|].
      cbn [map_rel mq_N mq_nr mq_nc mq_nel mq_ptr vm_N vm_nr vm_nc vm_nel vm_ref].
      rewrite W1; cbn [ms_N ms_nr ms_nc]. rewrite B. repeat (split; [reflexivity|]).
      destruct (sq_ptr o) as [b|] eqn:Eb; [exists b, o; auto|reflexivity].
    - rewrite (unusedm_rel _ _ _ A). destruct (unused (v_map v) m) as [[]|e|u]; cbn [rbind]; [|cbn; reflexivity..].
      destruct (livem_rel st v w A) as [(o & ww & E1 & E2 & R)|(E1 & E2)]; rewrite E1, E2; cbn [rbind]; [|cbn; reflexivity].
      apply put_map_agree; assumption.
    - destruct (livem_rel st v m A) as [(o1 & w1 & E1 & E2 & R1)|(E1 & E2)]; rewrite E1, E2; cbn [rbind]; [|cbn; reflexivity].
      destruct (livem_rel st v w A) as [(o & ww & F1 & F2 & R)|(F1 & F2)]; rewrite F1, F2; cbn [rbind]; [|cbn; reflexivity].
      apply put_map_agree; assumption.
    - destruct (livem_rel st v m A) as [(o1 & w1 & E1 & E2 & R1)|(E1 & E2)]; rewrite E1, E2; cbn [rbind]; [|cbn; reflexivity].
      apply put_map_agree; [exact A|exact I].
  Qed.

  Lemma run_sim cs : forall st v, agree st v -> sim (run O cs st) (vrun O cs v).
  Proof.
    induction cs as [|c cs IH]; intros st v A; cbn [run vrun]; [exact A|].
    pose proof (exec_sim c st v A) as H.
    destruct (exec O c st), (vexec O c v); cbn [sim] in H; try contradiction; auto.
  Qed.

  Lemma seq_at_agree st v x k : agree st v -> seq_at st x k = vseq_at v x k.
  Proof.
    intro A. unfold seq_at, vseq_at.
    destruct (live_rel st v x A) as [(o & s & E1 & E2 & E3 & E4 & V & B)|(E1 & E2)]; rewrite E1, E2; cbn [rbind]; [|reflexivity].
    rewrite V. reflexivity.
  Qed.
  Lemma seq_dims_agree st v x : agree st v -> seq_dims st x = vseq_dims v x.
  Proof.
    intro A. unfold seq_dims, vseq_dims.
    destruct (live_rel st v x A) as [(o & s & E1 & E2 & E3 & E4 & V & B)|(E1 & E2)]; rewrite E1, E2; cbn [rbind]; [|reflexivity].
    destruct (value_some _ _ _ V) as [W1 _]. rewrite W1. reflexivity.
  Qed.
  Lemma map_at_agree st v m k : agree st v -> map_at st m k = vmap_at v m k.
  Proof.
    intro A. unfold map_at, vmap_at.
    destruct (livem_rel st v m A) as [(o & w & E1 & E2 & R)|(E1 & E2)]; rewrite E1, E2; cbn [rbind]; [|reflexivity].
    cbn in R. destruct R as (R1 & R2 & R3 & R4 & R). rewrite R1, R2, R3, R4. destruct (vm_ref w) as [|x|].
    - rewrite R. reflexivity.
    - destruct R as (b & o' & B1 & B2 & B3). rewrite B1.
      pose proof (ag_seq _ _ A x) as H. unfold seq_rel in H. rewrite B2 in H. unfold live.
      destruct (v_seq v x) as [s|]; [|tauto]. destruct H as [H _]. cbn [rbind].
      rewrite (value_buf _ _ _ _ H B3). reflexivity.
    - destruct R as (b & B1 & B2 & _). rewrite B1, B2. reflexivity.
  Qed.
  Lemma map_dims_agree st v m : agree st v -> map_dims st m = vmap_dims v m.
  Proof.
    intro A. unfold map_dims, vmap_dims.
    destruct (livem_rel st v m A) as [(o & w & E1 & E2 & R)|(E1 & E2)]; rewrite E1, E2; cbn [rbind]; [|reflexivity].
    cbn in R. destruct R as (R1 & R2 & R3 & R4 & R). rewrite R1, R2, R3, R4. reflexivity.
  Qed.
End Proofs.

(* ---------- theorems ---------- *)
Section Theorems.
  Context {T : Type} (O : Ops T).
  Notation hst := (@hst T). Notation vst := (@vst T). Notation op := (@op T).

  (* states a program can reach *)
  Definition reached (st : hst) : Prop := exists cs, run O cs heap_init = Ok st.

  (* Everything a program can observe of its sequences and views - entries, sizes, exceptions,
     undefined behaviour - is as in the machine without pointers. *)
  Theorem C67_value_semantics : forall cs : list op,
    match run O cs heap_init, vrun O cs value_init with
    | Ok st, Ok v =>
        (forall x k, seq_at st x k = vseq_at v x k) /\ (forall x, seq_dims st x = vseq_dims v x) /\
        (forall m k, map_at st m k = vmap_at v m k) /\ (forall m, map_dims st m = vmap_dims v m)
    | UB u, UB u' => u = u'
    | _, _ => False
    end.
  Proof.
    intro cs. pose proof (run_sim O cs _ _ agree_init) as H.
    assert (NT : forall st e, run O cs st <> Throw e).
    { clear H. induction cs as [|c cs IH]; intros st e; cbn [run]; [discriminate|].
      destruct (exec O c st); [apply IH|apply IH|discriminate]. }
    destruct (run O cs heap_init) as [st|e|u] eqn:E1, (vrun O cs value_init) as [v|e'|u']; cbn [sim] in H; try contradiction; auto.
    - split; [intros; apply seq_at_agree; exact H|]. split; [intros; apply seq_dims_agree; exact H|].
      split; [intros; apply map_at_agree; exact H|intros; apply map_dims_agree; exact H].
    - exact (NT _ _ E1).
  Qed.

  (* nothing is leaked *)
  Theorem C67_no_leak : forall st, reached st -> (forall x, h_seq st x = None) -> forall b, h_buf st b = None.
  Proof.
    intros st (cs & E) N b. pose proof (run_sim O cs _ _ agree_init) as H. rewrite E in H.
    destruct (vrun O cs value_init) as [v| |]; cbn [sim] in H; try contradiction.
    destruct (h_buf st b) as [d|] eqn:Eb; [|reflexivity].
    destruct (ag_own _ _ H b d Eb) as (x & o & H1 & _). rewrite N in H1. discriminate.
  Qed.

  (* sizes stay positive, whatever is done to a sequence *)
  Definition vpos (v : vst) : Prop := forall x s, v_seq v x = Some s ->
    (0 < ms_nr (vs_val s) /\ 0 < ms_nc (vs_val s))%Z /\ (vs_store s = false -> ms_data (vs_val s) = []).

  Lemma nonempty_false (l : list T) : nonempty l = false -> l = [].
  Proof. destruct l; [reflexivity|discriminate]. Qed.

  Lemma vpos_exec c v v' : vpos v -> vexec O c v = Ok v' -> vpos v'.
  Proof.
    intros P. 
    assert (ST : forall w x s, vpos w -> (0 < ms_nr (vs_val s) /\ 0 < ms_nc (vs_val s))%Z ->
              (vs_store s = false -> ms_data (vs_val s) = []) ->
              forall mm, vpos (mkV (setf (v_seq w) x (Some s)) mm)).
    { intros w x s Pw A1 A2 mm z t. cbn [v_seq]. unfold setf. destruct (Nat.eqb_spec z x); [intros [= <-]; auto|apply Pw]. }
    assert (LV : forall x s, live (v_seq v) x = Ok s -> v_seq v x = Some s).
    { intros x s. unfold live. destruct (v_seq v x); congruence. }
    destruct c as [x|x len nr nc|x y|reuse x y|x y|x y|x k i j a|x|m|m x|m w|m w|m]; cbn [vexec]; intro E.
    - apply rbind_ok in E. destruct E as (? & _ & E). injection E as <-. apply ST; auto. cbn; lia.
    - apply rbind_ok in E. destruct E as (? & _ & E). apply rbind_ok in E. destruct E as (s & E1 & E). injection E as <-.
      apply ST; [exact P| |apply nonempty_false].
      pose proof (C21_owned_ctor O len nr nc) as H. rewrite E1 in H. cbn [vs_val]. destruct H as (_ & H1 & H2 & _ & _ & -> & -> & _). auto.
    - apply rbind_ok in E. destruct E as (? & _ & E). apply rbind_ok in E. destruct E as (s & E1 & E). injection E as <-.
      destruct (P _ _ (LV _ _ E1)) as [H1 H2]. apply ST; [exact P|exact H1|apply nonempty_false].
    - apply rbind_ok in E. destruct E as (t & E1 & E). apply rbind_ok in E. destruct E as (s & E2 & E).
      destruct (P _ _ (LV _ _ E2)) as [H1 H2].
      destruct (Nat.eqb x y); [injection E as <-; exact P|]. destruct (vs_store t && reuse); injection E as <-.
      + apply ST; [exact P|exact H1|discriminate].
      + apply ST; [exact P|exact H1|apply nonempty_false].
    - apply rbind_ok in E. destruct E as (? & _ & E). apply rbind_ok in E. destruct E as (s & E1 & E). injection E as <-.
      destruct (P _ _ (LV _ _ E1)) as [H1 H2].
      apply (ST (mkV (setf (v_seq v) x (Some s)) (v_map v)) y); [apply ST; auto|exact H1|reflexivity].
    - apply rbind_ok in E. destruct E as (t & _ & E). apply rbind_ok in E. destruct E as (s & E1 & E).
      apply rbind_ok in E. destruct E as (? & _ & E). injection E as <-.
      destruct (P _ _ (LV _ _ E1)) as [H1 H2].
      apply (ST (mkV (setf (v_seq v) x (Some s)) (v_map v)) y); [apply ST; auto|exact H1|reflexivity].
    - apply rbind_ok in E. destruct E as (s & E1 & E). apply rbind_ok in E. destruct E as (s' & E2 & E). injection E as <-.
      destruct (P _ _ (LV _ _ E1)) as [H1 H2]. destruct (write_shape _ _ _ _ _ _ E2) as [N ->].
      apply ST; [exact P|exact H1|]. intro H. exfalso. apply N. auto.
    - apply rbind_ok in E. destruct E as (s & E1 & E). injection E as <-.
      intros z t. cbn [v_seq]. unfold setf. destruct (Nat.eqb z x); [discriminate|apply P].
    - apply rbind_ok in E. destruct E as (? & _ & E). injection E as <-. exact P.
    - apply rbind_ok in E. destruct E as (? & _ & E). apply rbind_ok in E. destruct E as (? & _ & E). injection E as <-. exact P.
    - apply rbind_ok in E. destruct E as (? & _ & E). apply rbind_ok in E. destruct E as (? & _ & E). injection E as <-. exact P.
    - apply rbind_ok in E. destruct E as (? & _ & E). apply rbind_ok in E. destruct E as (? & _ & E). injection E as <-. exact P.
    - apply rbind_ok in E. destruct E as (? & _ & E). injection E as <-. exact P.
  Qed.
  Lemma vpos_run cs : forall v v', vpos v -> vrun O cs v = Ok v' -> vpos v'.
  Proof.
    induction cs as [|c cs IH]; intros v v' P; cbn [vrun]; [intros [= <-]; exact P|].
    destruct (vexec O c v) eqn:E; [|apply IH; exact P|discriminate]. apply IH. exact (vpos_exec _ _ _ P E).
  Qed.

  Lemma reached_value st : reached st -> exists v, agree st v /\ vpos v.
  Proof.
    intros (cs & E). pose proof (run_sim O cs _ _ agree_init) as H. rewrite E in H.
    destruct (vrun O cs value_init) as [v| |] eqn:EV; cbn [sim] in H; try contradiction.
    exists v. split; [exact H|]. eapply vpos_run; [|exact EV]. intros x s H'. discriminate H'.
  Qed.
  Lemma exec_value c st v st' : agree st v -> exec O c st = Ok st' ->
    exists v', vexec O c v = Ok v' /\ agree st' v'.
  Proof.
    intros A E. pose proof (exec_sim O c st v A) as H. rewrite E in H.
    destruct (vexec O c v) as [v'| |]; cbn [sim] in H; try contradiction. exists v'. auto.
  Qed.
  Lemma run_value cs st v st' : agree st v -> run O cs st = Ok st' ->
    exists v', vrun O cs v = Ok v' /\ agree st' v'.
  Proof.
    intros A E. pose proof (run_sim O cs st v A) as H. rewrite E in H.
    destruct (vrun O cs v) as [v'| |]; cbn [sim] in H; try contradiction. exists v'. auto.
  Qed.
  Theorem C67_reached_step : forall st c st', reached st -> exec O c st = Ok st' -> reached st'.
  Proof.
    intros st c st' (cs & E) H. exists (cs ++ [c]). revert E. generalize (@heap_init T).
    induction cs as [|a cs IH]; intros s0; cbn [run app].
    - intros [= ->]. rewrite H. reflexivity.
    - destruct (exec O a s0); [apply IH|apply IH|discriminate].
  Qed.

  (* the statements that change the sequence x *)
  Definition alters (x : nat) (c : op) : bool :=
    match c with
    | SeqAssign _ z _ | SeqWrite z _ _ _ _ | SeqDrop z => (z =? x)%nat
    | SeqMove _ y => (y =? x)%nat
    | SeqMoveAssign z y => (z =? x)%nat || (y =? x)%nat
    | _ => false
    end.

  Lemma frame_v c v v' x s : vexec O c v = Ok v' -> alters x c = false -> v_seq v x = Some s -> v_seq v' x = Some s.
  Proof.
    assert (KEEP : forall (f : nat -> option vseq) z t, f x = Some s -> (z =? x)%nat = false -> setf f z t x = Some s).
    { intros f z t H N. unfold setf. rewrite Nat.eqb_sym, N. exact H. }
    assert (FRESH : forall z, unused (v_seq v) z = Ok tt -> v_seq v x = Some s -> (z =? x)%nat = false).
    { intros z U H. apply Nat.eqb_neq. intros ->. unfold unused in U. rewrite H in U. discriminate. }
    destruct c as [z|z len nr nc|z y|reuse z y|z y|z y|z k i j a|z|m|m z|m w|m w|m]; cbn [vexec alters]; intros E N H.
    - apply rbind_ok in E. destruct E as ([] & U & E). injection E as <-. apply KEEP; auto.
    - apply rbind_ok in E. destruct E as ([] & U & E). apply rbind_ok in E. destruct E as (t & _ & E). injection E as <-. apply KEEP; auto.
    - apply rbind_ok in E. destruct E as ([] & U & E). apply rbind_ok in E. destruct E as (t & _ & E). injection E as <-. apply KEEP; auto.
    - apply rbind_ok in E. destruct E as (t & _ & E). apply rbind_ok in E. destruct E as (t' & _ & E).
      destruct (z =? y)%nat; [injection E as <-; exact H|]. destruct (_ && _)%bool; injection E as <-; apply KEEP; auto.
    - apply rbind_ok in E. destruct E as ([] & U & E). apply rbind_ok in E. destruct E as (t & _ & E). injection E as <-.
      cbn [v_seq]. apply KEEP; auto.
    - apply orb_false_iff in N. destruct N as [N1 N2].
      apply rbind_ok in E. destruct E as (t & _ & E). apply rbind_ok in E. destruct E as (t' & _ & E).
      apply rbind_ok in E. destruct E as (? & _ & E). injection E as <-. cbn [v_seq]. apply KEEP; auto.
    - apply rbind_ok in E. destruct E as (t & _ & E). apply rbind_ok in E. destruct E as (t' & _ & E). injection E as <-. apply KEEP; auto.
    - apply rbind_ok in E. destruct E as (t & _ & E). injection E as <-. apply KEEP; auto.
    - apply rbind_ok in E. destruct E as (? & _ & E). injection E as <-. exact H.
    - apply rbind_ok in E. destruct E as (? & _ & E). apply rbind_ok in E. destruct E as (t & _ & E). injection E as <-. exact H.
    - apply rbind_ok in E. destruct E as (? & _ & E). apply rbind_ok in E. destruct E as (t & _ & E). injection E as <-. exact H.
    - apply rbind_ok in E. destruct E as (? & _ & E). apply rbind_ok in E. destruct E as (t & _ & E). injection E as <-. exact H.
    - apply rbind_ok in E. destruct E as (? & _ & E). injection E as <-. exact H.
  Qed.
  Lemma frame_vrun cs : forall v v' x s, vrun O cs v = Ok v' -> Forall (fun c => alters x c = false) cs ->
    v_seq v x = Some s -> v_seq v' x = Some s.
  Proof.
    induction cs as [|c cs IH]; intros v v' x s; cbn [vrun]; [intros [= ->] _ H; exact H|].
    intros E F H. inversion F as [|? ? F1 F2]; subst. destruct (vexec O c v) as [w| |] eqn:Ec; [|eauto|discriminate].
    apply (IH w v' x s E F2). eapply frame_v; eauto.
  Qed.

  Lemma dims_live (st : hst) v x r : agree st v -> seq_dims st x = Ok r -> exists s, v_seq v x = Some s.
  Proof.
    intros A E. rewrite (seq_dims_agree st v x A) in E. unfold vseq_dims, live in E.
    destruct (v_seq v x) as [s|]; [exists s; reflexivity|discriminate].
  Qed.
  Lemma at_same v v' x k s : v_seq v x = Some s -> v_seq v' x = Some s ->
    vseq_at (T:=T) v x k = vseq_at v' x k /\ vseq_dims v x = vseq_dims v' x.
  Proof. intros H H'. unfold vseq_at, vseq_dims, live. rewrite H, H'. auto. Qed.

  (* A sequence changes only by statements about itself: no write to, copy, move or destruction of
     another object is ever visible in it. *)
  Theorem C67_independent : forall st cs st' x k r, reached st -> seq_dims st x = Ok r ->
    run O cs st = Ok st' -> Forall (fun c => alters x c = false) cs ->
    seq_at st' x k = seq_at st x k /\ seq_dims st' x = seq_dims st x.
  Proof.
    intros st cs st' x k r R L E F. destruct (reached_value st R) as (v & A & _).
    destruct (dims_live _ _ _ _ A L) as (s & Hs). destruct (run_value _ _ _ _ A E) as (v' & E' & A').
    rewrite !(seq_at_agree _ _ _ _ A), !(seq_at_agree _ _ _ _ A'), !(seq_dims_agree _ _ _ A), !(seq_dims_agree _ _ _ A').
    apply (at_same v' v x k s); [|exact Hs]. exact (frame_vrun _ _ _ _ _ E' F Hs).
  Qed.

  (* the copy constructor and copy assignment give x the value of y *)
  Theorem C67_copy : forall st c st' x y k, reached st -> (c = SeqCopy x y \/ exists reuse, c = SeqAssign reuse x y) ->
    exec O c st = Ok st' -> seq_at st' x k = seq_at st y k /\ seq_dims st' x = seq_dims st y /\
      seq_at st' y k = seq_at st y k /\ seq_dims st' y = seq_dims st y.
  Proof.
    intros st c st' x y k R Hc E. destruct (reached_value st R) as (v & A & _).
    destruct (exec_value _ _ _ _ A E) as (v' & E' & A').
    rewrite !(seq_at_agree _ _ _ _ A), !(seq_at_agree _ _ _ _ A'), !(seq_dims_agree _ _ _ A), !(seq_dims_agree _ _ _ A').
    unfold vseq_at, vseq_dims, live. destruct Hc as [->|(reuse & ->)]; cbn [vexec] in E'.
    - apply rbind_ok in E'. destruct E' as ([] & U & E'). apply rbind_ok in E'. destruct E' as (s & L & E').
      injection E' as <-. unfold live in L. destruct (v_seq v y) as [s'|] eqn:Ey; [|discriminate]. injection L as ->.
      assert (N : y <> x) by (intros ->; apply unused_ok in U; congruence).
      cbn [vset v_seq]. rewrite setf_eq, setf_neq, Ey by exact N. cbn. auto.
    - apply rbind_ok in E'. destruct E' as (t & L1 & E'). apply rbind_ok in E'. destruct E' as (s & L & E').
      unfold live in L. destruct (v_seq v y) as [s'|] eqn:Ey; [|discriminate]. injection L as ->.
      destruct (Nat.eqb_spec x y) as [->|N]; [injection E' as <-; rewrite Ey; auto|].
      destruct (vs_store t && reuse); injection E' as <-; cbn [vset v_seq]; rewrite setf_eq, setf_neq, Ey by congruence; cbn; auto.
  Qed.

  (* moving gives x the value of y; y keeps its sizes but has lost its storage: asking it for any
     matrix it claims to have is undefined behaviour.  All views keep showing what they showed. *)
  Theorem C67_move : forall st st' x y k, reached st -> exec O (SeqMove x y) st = Ok st' ->
    seq_at st' x k = seq_at st y k /\ seq_dims st' x = seq_dims st y /\
    seq_dims st' y = seq_dims st y /\
    (forall N r c nel, seq_dims st y = Ok (N, r, c, nel) -> (0 <= k < N)%Z -> is_ub (seq_at st' y k) = true) /\
    (forall m, map_at st' m k = map_at st m k).
  Proof.
    intros st st' x y k R E. destruct (reached_value st R) as (v & A & P).
    destruct (exec_value _ _ _ _ A E) as (v' & E' & A').
    cbn [vexec] in E'. apply rbind_ok in E'. destruct E' as ([] & U & E'). apply rbind_ok in E'. destruct E' as (s & L & E').
    injection E' as <-. apply unused_ok in U.
    assert (Ey : v_seq v y = Some s) by (unfold live in L; destruct (v_seq v y); congruence).
    assert (N : x <> y) by (intros ->; congruence).
    rewrite !(seq_at_agree _ _ _ _ A), !(seq_at_agree _ _ _ _ A'), !(seq_dims_agree _ _ _ A), !(seq_dims_agree _ _ _ A').
    unfold vseq_at, vseq_dims, live. cbn [v_seq v_map]. rewrite setf_eq, setf_neq, setf_eq, Ey by exact N. cbn [rbind].
    split; [reflexivity|]. split; [reflexivity|]. split; [reflexivity|]. split.
    - intros N' r c nel [= <- <- <- <-] K. destruct (P _ _ Ey) as [[P1 P2] _].
      unfold mseq_at. cbn [vs_val emptied ms_N ms_nr ms_nc ms_data].
      replace ((k <? 0)%Z || (ms_N (vs_val s) <=? k)%Z) with false by (symmetry; rewrite orb_false_iff, Z.ltb_ge, Z.leb_gt; lia).
      cbn [negb throw_unless rbind]. unfold view. unfold imul. destruct (in_int _); cbn [rbind is_ub]; [|reflexivity].
      destruct (in_int _); cbn [rbind is_ub]; [|reflexivity]. cbn [length].
      replace (_ <=? 0)%nat with false; [reflexivity|]. symmetry. apply Nat.leb_gt.
      assert (0 < Z.to_nat (ms_nr (vs_val s)) * Z.to_nat (ms_nc (vs_val s)))%nat; [|lia].
      apply Nat.mul_pos_pos; lia.
    - intro m. rewrite (map_at_agree _ _ _ _ A), (map_at_agree _ _ _ _ A'). unfold vmap_at, live, retarget. cbn [v_map v_seq].
      destruct (v_map v m) as [w|] eqn:Em; [|reflexivity]. cbn [rbind vm_ref vm_N vm_nr vm_nc vm_nel].
      destruct (vm_ref w) as [|z|] eqn:Ew; try reflexivity.
      pose proof (ag_map _ _ A m) as M. unfold map_rel in M. rewrite Em, Ew in M. destruct (h_map st m) as [mo|]; [|contradiction].
      destruct M as (_ & _ & _ & _ & b & o' & _ & M & _).
      destruct (Nat.eqb_spec z y) as [->|Nz].
      + rewrite setf_neq, setf_eq, Ey by exact N. reflexivity.
      + rewrite !setf_neq; [reflexivity| |exact Nz]. intros ->.
        pose proof (ag_seq _ _ A x) as Hx. unfold seq_rel in Hx. rewrite M, U in Hx. exact Hx.
  Qed.

  (* A view made of x shows x as it is now - later writes included - until x is assigned, moved
     from or destroyed, or the view itself is changed. *)
  Definition keeps_storage (x m : nat) (c : op) : bool :=
    match c with
    | SeqWrite _ _ _ _ _ => true
    | MapDrop w | MapAssign w _ => negb (w =? m)%nat
    | _ => negb (alters x c)
    end.

  Theorem C67_view : forall st st1 cs st2 x m k M, reached st ->
    seq_at st x 0 = Ok M -> exec O (MapOf m x) st = Ok st1 -> run O cs st1 = Ok st2 ->
    Forall (fun c => keeps_storage x m c = true) cs ->
    map_at st2 m k = seq_at st2 x k /\ exists N r c a b, map_dims st2 m = Ok (N, r, c, a) /\ seq_dims st2 x = Ok (N, r, c, b).
  Proof.
    intros st st1 cs st2 x m k M R EM E1 E2 F.
    destruct (reached_value st R) as (v & A & P). destruct (exec_value _ _ _ _ A E1) as (v1 & E1' & A1).
    destruct (run_value _ _ _ _ A1 E2) as (v2 & E2' & A2).
    rewrite (map_at_agree _ _ _ _ A2), (seq_at_agree _ _ _ _ A2), (map_dims_agree _ _ _ A2), (seq_dims_agree _ _ _ A2).
    rewrite (seq_at_agree _ _ _ _ A) in EM.
    assert (INV : forall v : vst, (exists s w, v_seq v x = Some s /\ v_map v m = Some w /\ vm_ref w = ROf x /\
                vm_N w = ms_N (vs_val s) /\ vm_nr w = ms_nr (vs_val s) /\ vm_nc w = ms_nc (vs_val s)) ->
              vmap_at v m k = vseq_at v x k /\ exists N r c a b, vmap_dims v m = Ok (N, r, c, a) /\ vseq_dims v x = Ok (N, r, c, b)).
    { intros v0 (s & w & H1 & H2 & H3 & H4 & H5 & H6). unfold vmap_at, vseq_at, vmap_dims, vseq_dims, live. rewrite H1, H2.
      cbn [rbind]. rewrite H3, H1. cbn [rbind]. unfold mapseq_at, mseq_at. cbn [mp_N mp_mem mp_nr mp_nc]. rewrite H4, H5, H6.
      split; [reflexivity|]. do 5 eexists. split; reflexivity. }
    apply INV. clear INV E1 E2 A1 A2.
    (* at the start *)
    assert (S1 : exists s w, v_seq v1 x = Some s /\ v_map v1 m = Some w /\ vm_ref w = ROf x /\
                vm_N w = ms_N (vs_val s) /\ vm_nr w = ms_nr (vs_val s) /\ vm_nc w = ms_nc (vs_val s)).
    { cbn [vexec] in E1'. apply rbind_ok in E1'. destruct E1' as ([] & _ & E). apply rbind_ok in E. destruct E as (s & L & E).
      injection E as <-. assert (Ex : v_seq v x = Some s) by (unfold live in L; destruct (v_seq v x); congruence).
      exists s. cbn [vsetm v_seq v_map]. rewrite setf_eq. eexists. split; [exact Ex|]. split; [reflexivity|].
      cbn [vm_ref vm_N vm_nr vm_nc]. split; [|auto].
      destruct (vs_store s) eqn:Es; [reflexivity|]. exfalso. destruct (P _ _ Ex) as [[P1 P2] P3]. specialize (P3 Es).
      unfold vseq_at in EM. rewrite L in EM. cbn [rbind] in EM. unfold mseq_at in EM.
      destruct (negb _); cbn [throw_unless rbind] in EM; [|discriminate]. unfold view in EM. cbn [Z.mul imul] in EM.
      apply rbind_ok in EM. destruct EM as (p & _ & EM). apply rbind_ok in EM. destruct EM as (q & _ & EM).
      rewrite P3 in EM. cbn [length] in EM.
      replace (_ <=? 0)%nat with false in EM; [discriminate|]. symmetry. apply Nat.leb_gt.
      assert (0 < Z.to_nat (ms_nr (vs_val s)) * Z.to_nat (ms_nc (vs_val s)))%nat; [|lia].
      apply Nat.mul_pos_pos; lia. }
    clear E1' EM P A R. revert v1 S1 E2' F. induction cs as [|c cs IH]; intros v1 S1 E F; cbn [vrun] in E.
    { injection E as <-. exact S1. }
    inversion F as [|? ? F1 F2]; subst. destruct (vexec O c v1) as [w1| |] eqn:Ec; [|eauto|discriminate].
    apply (IH w1); [|exact E|exact F2]. clear IH E F F2.
    destruct S1 as (s & w & H1 & H2 & H3 & H4 & H5 & H6).
    destruct (alters x c) eqn:AL.
    - destruct c as [z|z len nr nc|z y|reuse z y|z y|z y|z k' i j a|z|m'|m' z|m' w'|m' w'|m']; cbn [keeps_storage alters negb] in F1, AL; try discriminate; try (rewrite AL in F1; discriminate).
      apply Nat.eqb_eq in AL. subst z. cbn [vexec] in Ec. apply rbind_ok in Ec. destruct Ec as (t & L & Ec).
      unfold live in L. rewrite H1 in L. injection L as <-. apply rbind_ok in Ec. destruct Ec as (s' & W & Ec). injection Ec as <-.
      exists (mkVS s' (vs_store s)), w. cbn [vset v_seq v_map vs_val]. rewrite setf_eq. split; [reflexivity|]. split; [exact H2|].
      destruct (write_shape _ _ _ _ _ _ W) as [_ ->]. auto.
    - pose proof (frame_v _ _ _ _ _ Ec AL H1) as H1'. exists s.
      enough (HM : exists w', v_map w1 m = Some w' /\ vm_ref w' = ROf x /\ vm_N w' = vm_N w /\ vm_nr w' = vm_nr w /\ vm_nc w' = vm_nc w).
      { destruct HM as (w' & K1 & K2 & K3 & K4 & K5). exists w'. rewrite K3, K4, K5. auto 10. }
      assert (RT : forall f, f x = ROf x -> exists w', retarget f (v_map v1) m = Some w' /\ vm_ref w' = ROf x /\ vm_N w' = vm_N w /\ vm_nr w' = vm_nr w /\ vm_nc w' = vm_nc w).
      { intros f Hf. unfold retarget. rewrite H2. eexists. split; [reflexivity|]. cbn. rewrite H3. auto. }
      assert (ID : exists w', v_map v1 m = Some w' /\ vm_ref w' = ROf x /\ vm_N w' = vm_N w /\ vm_nr w' = vm_nr w /\ vm_nc w' = vm_nc w) by (exists w; auto).
      assert (NM : forall m', unused (v_map v1) m' = Ok tt -> m <> m').
      { intros m' U ->. apply unused_ok in U. congruence. }
      assert (FR : forall z, unused (v_seq v1) z = Ok tt -> z <> x).
      { intros m' U ->. apply unused_ok in U. congruence. }
      destruct c as [z|z len nr nc|z y|reuse z y|z y|z y|z k' i j a|z|m'|m' z|m' w'|m' w'|m']; cbn [keeps_storage alters vexec] in F1, AL, Ec.
      + apply rbind_ok in Ec. destruct Ec as ([] & _ & Ec). injection Ec as <-. exact ID.
      + apply rbind_ok in Ec. destruct Ec as ([] & _ & Ec). apply rbind_ok in Ec. destruct Ec as (t & _ & Ec). injection Ec as <-. exact ID.
      + apply rbind_ok in Ec. destruct Ec as ([] & _ & Ec). apply rbind_ok in Ec. destruct Ec as (t & _ & Ec). injection Ec as <-. exact ID.
      + apply rbind_ok in Ec. destruct Ec as (t & _ & Ec). apply rbind_ok in Ec. destruct Ec as (t' & _ & Ec).
        destruct (z =? y)%nat; [injection Ec as <-; exact ID|]. destruct (_ && _)%bool; injection Ec as <-; [exact ID|].
        apply RT. unfold lost. rewrite Nat.eqb_sym, AL. reflexivity.
      + apply rbind_ok in Ec. destruct Ec as ([] & U & Ec). apply rbind_ok in Ec. destruct Ec as (t & _ & Ec). injection Ec as <-.
        apply RT. rewrite Nat.eqb_sym, AL. reflexivity.
      + apply orb_false_iff in AL. destruct AL as [AL1 AL2]. apply rbind_ok in Ec. destruct Ec as (t & _ & Ec).
        apply rbind_ok in Ec. destruct Ec as (t' & _ & Ec). apply rbind_ok in Ec. destruct Ec as (_ & _ & Ec). injection Ec as <-.
        apply RT. rewrite (Nat.eqb_sym x z), AL1, (Nat.eqb_sym x y), AL2. reflexivity.
      + apply rbind_ok in Ec. destruct Ec as (t & _ & Ec). apply rbind_ok in Ec. destruct Ec as (t' & _ & Ec). injection Ec as <-. exact ID.
      + apply rbind_ok in Ec. destruct Ec as (t & _ & Ec). injection Ec as <-. apply RT. unfold lost. rewrite Nat.eqb_sym, AL. reflexivity.
      + apply rbind_ok in Ec. destruct Ec as ([] & U & Ec). injection Ec as <-. cbn [vsetm v_map]. rewrite setf_neq by (apply NM; exact U). exact ID.
      + apply rbind_ok in Ec. destruct Ec as ([] & U & Ec). apply rbind_ok in Ec. destruct Ec as (t & _ & Ec). injection Ec as <-.
        cbn [vsetm v_map]. rewrite setf_neq by (apply NM; exact U). exact ID.
      + apply rbind_ok in Ec. destruct Ec as ([] & U & Ec). apply rbind_ok in Ec. destruct Ec as (t & _ & Ec). injection Ec as <-.
        cbn [vsetm v_map]. rewrite setf_neq by (apply NM; exact U). exact ID.
      + apply negb_true_iff, Nat.eqb_neq in F1.
        apply rbind_ok in Ec. destruct Ec as (t' & _ & Ec). apply rbind_ok in Ec. destruct Ec as (t & _ & Ec). injection Ec as <-.
        cbn [vsetm v_map]. rewrite setf_neq by congruence. exact ID.
      + apply negb_true_iff, Nat.eqb_neq in F1.
        apply rbind_ok in Ec. destruct Ec as (t' & _ & Ec). injection Ec as <-.
        cbn [vsetm v_map]. rewrite setf_neq by congruence. exact ID.
  Qed.

  (* once the sequence is gone, indexing its view reads freed memory *)
  Theorem C67_dangling : forall st st1 st2 x m k M N r c a, reached st ->
    seq_at st x 0 = Ok M -> exec O (MapOf m x) st = Ok st1 -> exec O (SeqDrop x) st1 = Ok st2 ->
    seq_dims st x = Ok (N, r, c, a) -> (0 <= k < N)%Z ->
    map_dims st2 m = Ok (N, r, c, (N * r * c)%Z) /\ map_at st2 m k = UB UBDangling.
  Proof.
    intros st st1 st2 x m k M N r c a R EM E1 E2 ED K.
    destruct (reached_value st R) as (v & A & P). destruct (exec_value _ _ _ _ A E1) as (v1 & E1' & A1).
    destruct (exec_value _ _ _ _ A1 E2) as (v2 & E2' & A2).
    rewrite (map_at_agree _ _ _ _ A2), (map_dims_agree _ _ _ A2).
    rewrite (seq_at_agree _ _ _ _ A) in EM. rewrite (seq_dims_agree _ _ _ A) in ED.
    cbn [vexec] in E1', E2'. apply rbind_ok in E1'. destruct E1' as ([] & _ & E). apply rbind_ok in E. destruct E as (s & L & E).
    cbv zeta in E. injection E as <-. apply rbind_ok in E2'. destruct E2' as (s2 & L2 & E). injection E as <-.
    assert (Ex : v_seq v x = Some s) by (unfold live in L; destruct (v_seq v x); congruence).
    assert (SS : vs_store s = true).
    { destruct (vs_store s) eqn:Es; [reflexivity|]. exfalso. destruct (P _ _ Ex) as [[P1 P2] P3]. specialize (P3 Es).
      unfold vseq_at in EM. rewrite L in EM. cbn [rbind] in EM. unfold mseq_at in EM.
      destruct (negb _); cbn [throw_unless rbind] in EM; [|discriminate]. unfold view in EM. cbn [Z.mul imul] in EM.
      apply rbind_ok in EM. destruct EM as (p & _ & EM). apply rbind_ok in EM. destruct EM as (q & _ & EM).
      rewrite P3 in EM. cbn [length] in EM.
      replace (_ <=? 0)%nat with false in EM; [discriminate|]. symmetry. apply Nat.leb_gt.
      assert (0 < Z.to_nat (ms_nr (vs_val s)) * Z.to_nat (ms_nc (vs_val s)))%nat; [|lia].
      apply Nat.mul_pos_pos; lia. }
    unfold vseq_dims in ED. rewrite L in ED. cbn [rbind] in ED. injection ED as <- <- <- <-.
    unfold vmap_at, vmap_dims, live, retarget. cbn [vsetm v_map v_seq]. rewrite setf_eq, SS. cbn [rbind vm_ref vm_N vm_nr vm_nc vm_nel].
    split; [reflexivity|]. unfold lost. rewrite Nat.eqb_refl.
    replace ((k <? 0)%Z || (ms_N (vs_val s) <=? k)%Z) with false by (symmetry; rewrite orb_false_iff, Z.ltb_ge, Z.leb_gt; lia).
    reflexivity.
  Qed.
End Theorems.
