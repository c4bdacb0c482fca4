(* MpcData (mpc_data.h, mpc_data.cc). *)
From Verif Require Export MatSeq.
Local Open Scope res_scope.

(* The eleven sequences and x0 an MPC problem consists of, as views: the members of MpcData
   (mpc_data.h:215-226) and of FBstabMpc::ProblemDataRef (fbstab_mpc.h:108-119). *)
Record mpc_ref (T : Type) : Type := mkMR {
  m_Q : mapseq T; m_R : mapseq T; m_S : mapseq T; m_q : mapseq T; m_r : mapseq T;
  m_A : mapseq T; m_B : mapseq T; m_c : mapseq T; m_E : mapseq T; m_L : mapseq T;
  m_d : mapseq T; m_x0 : vec T }.
Arguments mkMR {T}. Arguments m_Q {T}. Arguments m_R {T}. Arguments m_S {T}. Arguments m_q {T}.
Arguments m_r {T}. Arguments m_A {T}. Arguments m_B {T}. Arguments m_c {T}. Arguments m_E {T}.
Arguments m_L {T}. Arguments m_d {T}. Arguments m_x0 {T}.

(* FBstabMpc::ProblemData, owning (fbstab_mpc.h:69-91) *)
Record mpc_own (T : Type) : Type := mkMO {
  o_Q : mseq T; o_R : mseq T; o_S : mseq T; o_q : mseq T; o_r : mseq T;
  o_A : mseq T; o_B : mseq T; o_c : mseq T; o_E : mseq T; o_L : mseq T;
  o_d : mseq T; o_x0 : vec T }.
Arguments mkMO {T}. Arguments o_Q {T}. Arguments o_R {T}. Arguments o_S {T}. Arguments o_q {T}.
Arguments o_r {T}. Arguments o_A {T}. Arguments o_B {T}. Arguments o_c {T}. Arguments o_E {T}.
Arguments o_L {T}. Arguments o_d {T}. Arguments o_x0 {T}.

(* MpcData: dimensions, cached norm, views (mpc_data.h:204-226) *)
Record mpc_data (T : Type) : Type := mkMD {
  md_N : nat; md_nx : nat; md_nu : nat; md_nc : nat;
  md_nz : nat; md_nl : nat; md_nv : nat; md_fnorm : T; md_m : mpc_ref T }.
Arguments mkMD {T}. Arguments md_N {T}. Arguments md_nx {T}. Arguments md_nu {T}.
Arguments md_nc {T}. Arguments md_nz {T}. Arguments md_nl {T}. Arguments md_nv {T}.
Arguments md_fnorm {T}. Arguments md_m {T}.

(* iterate a failing update over i = 0 .. n-1 (C++ for loops over stages) *)
Fixpoint for_from {S : Type} (n i : nat) (f : nat -> S -> res S) (s : S) : res S :=
  match n with
  | 0%nat => Ok s
  | S n' => s' <- f i s ;; for_from n' (Datatypes.S i) f s'
  end.
Definition for_n {S : Type} (n : nat) (f : nat -> S -> res S) (s : S) : res S := for_from n 0 f s.

Section MpcData.
  Context {T : Type} (O : Ops T).
  Notation vg := (vget O).
  Infix "+!" := (o_add O) (at level 50, left associativity).
  Infix "-!" := (o_sub O) (at level 50, left associativity).
  Infix "*!" := (o_mul O) (at level 40, left associativity).

  (* operator() as used inside loops: k is a stage index *)
  Definition at_ (s : mapseq T) (k : nat) : res (mat T) := mapseq_at s (Z.of_nat k).

  (* replacing the segment [s, s+n) of y (a block of a Map over y) *)
  Definition seg_upd (y : vec T) (s n : nat) (f : nat -> T) : vec T :=
    tab (length y) (fun k => if ((s <=? k) && (k <? s + n))%nat then f (k - s)%nat else vg y k).

  (* the b-scaling prologue, e.g. mpc_data.cc:25-29 *)
  Definition prescale (b : T) (y : vec T) : vec T :=
    if o_eqb O b (o_zero O) then vconst (length y) (o_zero O)
    else if negb (o_eqb O b (o_one O)) then vscale O b y
    else y.

  (* y[s..s+n) += (M1*x1 + M2*x2) scaled by a, in the three flavours of the code:
     a == 1, a == -1, other (mpc_data.cc:52-63, 96-103) *)
  Definition acc2 (a : T) (s n : nat) (p1 p2 : vec T) (y : vec T) : vec T :=
    if o_eqb O a (o_one O) then
      seg_upd y s n (fun i => vg y (s + i)%nat +! (vg p1 i +! vg p2 i))
    else if o_eqb O a (o_mone O) then
      seg_upd y s n (fun i => vg y (s + i)%nat -! (vg p1 i +! vg p2 i))
    else
      let y1 := seg_upd y s n (fun i => vg y (s + i)%nat +! a *! vg p1 i) in
      seg_upd y1 s n (fun i => vg y1 (s + i)%nat +! a *! vg p2 i).

  (* same with one product *)
  Definition acc1 (a : T) (s n : nat) (p1 : vec T) (y : vec T) : vec T :=
    if o_eqb O a (o_one O) then seg_upd y s n (fun i => vg y (s + i)%nat +! vg p1 i)
    else if o_eqb O a (o_mone O) then seg_upd y s n (fun i => vg y (s + i)%nat -! vg p1 i)
    else seg_upd y s n (fun i => vg y (s + i)%nat +! a *! vg p1 i).

  (* y[s..s+n) += a*w *)
  Definition acc_vec (a : T) (s n : nat) (w : vec T) (y : vec T) : vec T :=
    seg_upd y s n (fun i => vg y (s + i)%nat +! a *! vg w i).

  (* shape of a matrix against what an Eigen expression needs *)
  Definition shape (M : mat T) (r c : nat) : res unit :=
    ub_unless ((mr M =? r)%nat && (mc M =? c)%nat) UBSize.

  Definition size_chk (x y : vec T) (nx ny : nat) : res unit :=
    throw_unless ((length x =? nx)%nat && (length y =? ny)%nat) EGemvSize.

  (* gemvH, mpc_data.cc:17-65 *)
  Definition mpc_gemvH (d : mpc_data T) (x : vec T) (a b : T) (y : vec T) : res (vec T) :=
    let nx := md_nx d in let nu := md_nu d in let w := (nx + nu)%nat in
    size_chk x y (md_nz d) (md_nz d) ;;
    for_n (md_N d + 1)%nat (fun i y =>
      Q <- at_ (m_Q (md_m d)) i ;; S <- at_ (m_S (md_m d)) i ;; R <- at_ (m_R (md_m d)) i ;;
      shape Q nx nx ;; shape S nu nx ;; shape R nu nu ;;
      let vx := vseg O x (i * w) nx in
      let vu := vseg O x (i * w + nx) nu in
      let y := acc2 a (i * w) nx (mv O Q vx) (mtv O S vu) y in
      let y := acc2 a (i * w + nx) nu (mv O S vx) (mv O R vu) y in
      Ok y) (prescale b y).

  (* gemvA, mpc_data.cc:67-105 *)
  Definition mpc_gemvA (d : mpc_data T) (x : vec T) (a b : T) (y : vec T) : res (vec T) :=
    let nx := md_nx d in let nu := md_nu d in let nc := md_nc d in let w := (nx + nu)%nat in
    size_chk x y (md_nz d) (md_nv d) ;;
    for_n (md_N d + 1)%nat (fun i y =>
      E <- at_ (m_E (md_m d)) i ;; L <- at_ (m_L (md_m d)) i ;;
      shape E nc nx ;; shape L nc nu ;;
      let xi := vseg O x (i * w) nx in
      let ui := vseg O x (i * w + nx) nu in
      Ok (acc2 a (i * nc) nc (mv O E xi) (mv O L ui) y)) (prescale b y).

  (* gemvG, mpc_data.cc:107-151 *)
  Definition mpc_gemvG (d : mpc_data T) (x : vec T) (a b : T) (y : vec T) : res (vec T) :=
    let nx := md_nx d in let nu := md_nu d in let w := (nx + nu)%nat in
    size_chk x y (md_nz d) (md_nl d) ;;
    let y := acc_vec (o_opp O a) 0 nx (vseg O x 0 nx) (prescale b y) in
    for_from (md_N d) 1 (fun i y =>
      A <- at_ (m_A (md_m d)) (i - 1) ;; B <- at_ (m_B (md_m d)) (i - 1) ;;
      shape A nx nx ;; shape B nx nu ;;
      let xm1 := vseg O x ((i - 1) * w) nx in
      let um1 := vseg O x ((i - 1) * w + nx) nu in
      let xi := vseg O x (i * w) nx in
      let y := acc2 a (i * nx) nx (mv O A xm1) (mv O B um1) y in
      Ok (if o_eqb O a (o_one O) then
            seg_upd y (i * nx) nx (fun k => vg y (i * nx + k)%nat -! vg xi k)
          else if o_eqb O a (o_mone O) then
            seg_upd y (i * nx) nx (fun k => vg y (i * nx + k)%nat +! vg xi k)
          else
            seg_upd y (i * nx) nx (fun k => vg y (i * nx + k)%nat -! a *! vg xi k))) y.

  (* gemvGT, mpc_data.cc:153-198.  In the branch for a not in {1,-1} the code updates xi only:
     there is no statement for ui (mpc_data.cc:192-194). *)
  Definition mpc_gemvGT (d : mpc_data T) (x : vec T) (a b : T) (y : vec T) : res (vec T) :=
    let nx := md_nx d in let nu := md_nu d in let w := (nx + nu)%nat in
    size_chk x y (md_nl d) (md_nz d) ;;
    y <- for_n (md_N d) (fun i y =>
      A <- at_ (m_A (md_m d)) i ;; B <- at_ (m_B (md_m d)) i ;;
      shape A nx nx ;; shape B nx nu ;;
      let vi := vseg O x (i * nx) nx in
      let vp1 := vseg O x ((i + 1) * nx) nx in
      let y := acc_vec (o_opp O a) (i * w) nx vi y in
      let y := acc1 a (i * w) nx (mtv O A vp1) y in
      Ok (if o_eqb O a (o_one O) || o_eqb O a (o_mone O)
          then acc1 a (i * w + nx) nu (mtv O B vp1) y else y)) (prescale b y) ;;
    Ok (acc_vec (o_opp O a) (md_N d * w) nx (vseg O x (md_N d * nx) nx) y).

  (* gemvAT, mpc_data.cc:200-238 (the order of the two updates is immaterial: they touch
     disjoint segments) *)
  Definition mpc_gemvAT (d : mpc_data T) (x : vec T) (a b : T) (y : vec T) : res (vec T) :=
    let nx := md_nx d in let nu := md_nu d in let nc := md_nc d in let w := (nx + nu)%nat in
    size_chk x y (md_nv d) (md_nz d) ;;
    for_n (md_N d + 1)%nat (fun i y =>
      E <- at_ (m_E (md_m d)) i ;; L <- at_ (m_L (md_m d)) i ;;
      shape E nc nx ;; shape L nc nu ;;
      let vi := vseg O x (i * nc) nc in
      let y := acc1 a (i * w) nx (mtv O E vi) y in
      Ok (acc1 a (i * w + nx) nu (mtv O L vi) y)) (prescale b y).

  Definition size_chk1 (y : vec T) (ny : nat) : res unit :=
    throw_unless (length y =? ny)%nat EGemvSize.

  (* axpyf, mpc_data.cc:240-258.  q_(i), r_(i) must be single columns for the Eigen assignment
     to be defined; ValidateInputs checks their row counts only. *)
  Definition mpc_axpyf (d : mpc_data T) (a : T) (y : vec T) : res (vec T) :=
    let nx := md_nx d in let nu := md_nu d in let w := (nx + nu)%nat in
    size_chk1 y (md_nz d) ;;
    for_n (md_N d + 1)%nat (fun i y =>
      q <- at_ (m_q (md_m d)) i ;; r <- at_ (m_r (md_m d)) i ;;
      shape q nx 1 ;; shape r nu 1 ;;
      let y := acc_vec a (i * w) nx (mcol O q 0) y in
      Ok (acc_vec a (i * w + nx) nu (mcol O r 0) y)) y.

  (* axpyh, mpc_data.cc:260-274 *)
  Definition mpc_axpyh (d : mpc_data T) (a : T) (y : vec T) : res (vec T) :=
    let nx := md_nx d in
    size_chk1 y (md_nl d) ;;
    ub_unless (length (m_x0 (md_m d)) =? nx)%nat UBSize ;;
    let y := acc_vec (o_opp O a) 0 nx (m_x0 (md_m d)) y in
    for_from (md_N d) 1 (fun i y =>
      c <- at_ (m_c (md_m d)) (i - 1) ;;
      shape c nx 1 ;;
      Ok (acc_vec (o_opp O a) (i * nx) nx (mcol O c 0) y)) y.

  (* axpyb, mpc_data.cc:276-289 *)
  Definition mpc_axpyb (d : mpc_data T) (a : T) (y : vec T) : res (vec T) :=
    let nc := md_nc d in
    size_chk1 y (md_nv d) ;;
    for_n (md_N d + 1)%nat (fun i y =>
      dd <- at_ (m_d (md_m d)) i ;;
      shape dd nc 1 ;;
      Ok (acc_vec (o_opp O a) (i * nc) nc (mcol O dd 0) y)) y.

  (* ValidateInputs, mpc_data.cc:291-363, in program order *)
  Definition mpc_validate (m : mpc_ref T) : res unit :=
    let N := mp_N (m_Q m) in
    let zeq := Z.eqb in
    throw_unless (negb (N <=? 0)%Z) EDataSize ;;
    throw_unless (zeq N (mp_N (m_R m)) && zeq N (mp_N (m_S m)) && zeq N (mp_N (m_q m)) &&
                  zeq N (mp_N (m_r m)) && zeq (N - 1)%Z (mp_N (m_A m)) &&
                  zeq (N - 1)%Z (mp_N (m_B m)) && zeq (N - 1)%Z (mp_N (m_c m)) &&
                  zeq N (mp_N (m_E m)) && zeq N (mp_N (m_L m)) && zeq N (mp_N (m_d m))) EDataSize ;;
    let nx := mp_nr (m_Q m) in
    throw_unless (zeq (Z.of_nat (length (m_x0 m))) nx) EDataSize ;;
    throw_unless (zeq (mp_nc (m_Q m)) nx) EDataSize ;;
    throw_unless (zeq (mp_nc (m_S m)) nx) EDataSize ;;
    throw_unless (zeq (mp_nr (m_q m)) nx) EDataSize ;;
    throw_unless (zeq (mp_nc (m_E m)) nx) EDataSize ;;
    throw_unless (zeq (mp_nr (m_A m)) nx && zeq (mp_nc (m_A m)) nx) EDataSize ;;
    throw_unless (zeq (mp_nr (m_B m)) nx) EDataSize ;;
    throw_unless (zeq (mp_nr (m_c m)) nx) EDataSize ;;
    let nu := mp_nr (m_R m) in
    throw_unless (zeq (mp_nc (m_R m)) nu) EDataSize ;;
    throw_unless (zeq (mp_nr (m_S m)) nu) EDataSize ;;
    throw_unless (zeq (mp_nr (m_r m)) nu) EDataSize ;;
    throw_unless (zeq (mp_nc (m_L m)) nu) EDataSize ;;
    throw_unless (zeq (mp_nc (m_B m)) nu) EDataSize ;;
    let nc := mp_nr (m_E m) in
    throw_unless (zeq (mp_nr (m_L m)) nc) EDataSize ;;
    throw_unless (zeq (mp_nr (m_d m)) nc) EDataSize.

  (* squaredNorm of a matrix: sum over all entries *)
  Definition msqnorm (M : mat T) : T := o_dot O (me M) (me M).

  (* constructor, mpc_data.h:62-98 *)
  Definition MpcData_ctor (m : mpc_ref T) : res (mpc_data T) :=
    mpc_validate m ;;
    let N := mp_N (m_B m) in
    let nx := mp_nr (m_B m) in
    let nu := mp_nc (m_B m) in
    let nc := mp_nr (m_E m) in
    N1 <- iadd N 1 ;;
    w <- iadd nx nu ;;
    nz <- imul N1 w ;;
    nl <- imul N1 nx ;;
    nv <- imul N1 nc ;;
    s <- for_n (Z.to_nat N + 1)%nat (fun i acc =>
           q <- at_ (m_q m) i ;;
           let acc := acc +! msqnorm q in
           r <- at_ (m_r m) i ;;
           let acc := acc +! msqnorm r in
           d <- at_ (m_d m) i ;;
           let acc := acc +! msqnorm d in
           if (i =? 0)%nat then Ok (acc +! vsqnorm O (m_x0 m))
           else c <- at_ (m_c m) (i - 1) ;; Ok (acc +! msqnorm c)) (o_zero O) ;;
    Ok (mkMD (Z.to_nat N) (Z.to_nat nx) (Z.to_nat nu) (Z.to_nat nc)
             (Z.to_nat nz) (Z.to_nat nl) (Z.to_nat nv) (o_sqrt O s) m).

  (* binding an owning problem: every sequence is converted to a view (mpc_data.h:67-78) *)
  Definition ref_of_own (p : mpc_own T) : mpc_ref T :=
    mkMR (map_of_mseq (o_Q p)) (map_of_mseq (o_R p)) (map_of_mseq (o_S p))
         (map_of_mseq (o_q p)) (map_of_mseq (o_r p)) (map_of_mseq (o_A p))
         (map_of_mseq (o_B p)) (map_of_mseq (o_c p)) (map_of_mseq (o_E p))
         (map_of_mseq (o_L p)) (map_of_mseq (o_d p)) (o_x0 p).

  Definition mpcDI : DataI T (mpc_data T) :=
    mkDataI mpc_gemvH mpc_gemvA mpc_gemvG mpc_gemvAT mpc_gemvGT mpc_axpyf mpc_axpyh mpc_axpyb
            (fun d => md_fnorm d).
End MpcData.
