(* fbstab/test/ocp_generator.{h,cc}: the generator of the example control problems. *)
From Verif Require Export Riccati.
Local Open Scope res_scope.

(* The arguments of CopyOverHorizon, ocp_generator.cc:365-371 (all but N) *)
Record stage (T : Type) : Type := mkStage {
  s_Q : mat T; s_R : mat T; s_S : mat T; s_q : vec T; s_r : vec T;
  s_A : mat T; s_B : mat T; s_c : vec T; s_E : mat T; s_L : mat T; s_d : vec T; s_x0 : vec T }.
Arguments mkStage {T}. Arguments s_Q {T}. Arguments s_R {T}. Arguments s_S {T}. Arguments s_q {T}.
Arguments s_r {T}. Arguments s_A {T}. Arguments s_B {T}. Arguments s_c {T}. Arguments s_E {T}.
Arguments s_L {T}. Arguments s_d {T}. Arguments s_x0 {T}.

(* OcpGenerator::SimulationInputs, ocp_generator.h:33-40 *)
Record sim (T : Type) : Type := mkSim {
  si_x0 : vec T; si_A : mat T; si_B : mat T; si_C : mat T; si_D : mat T; si_T : Z }.
Arguments mkSim {T}. Arguments si_x0 {T}. Arguments si_A {T}. Arguments si_B {T}. Arguments si_C {T}.
Arguments si_D {T}. Arguments si_T {T}.

(* The members of OcpGenerator, ocp_generator.h:166-200.  The sequences and x0_ are kept as one
   mpc_own. *)
Record gen (T : Type) : Type := mkGen {
  ge_own : mpc_own T; ge_Asim : mat T; ge_Bsim : mat T; ge_Csim : mat T; ge_Dsim : mat T; ge_T : Z;
  ge_nz : Z; ge_nl : Z; ge_nv : Z; ge_N : Z; ge_nx : Z; ge_nu : Z; ge_nc : Z; ge_ready : bool }.
Arguments mkGen {T}. Arguments ge_own {T}. Arguments ge_Asim {T}. Arguments ge_Bsim {T}. Arguments ge_Csim {T}.
Arguments ge_Dsim {T}. Arguments ge_T {T}. Arguments ge_nz {T}. Arguments ge_nl {T}. Arguments ge_nv {T}.
Arguments ge_N {T}. Arguments ge_nx {T}. Arguments ge_nu {T}. Arguments ge_nc {T}. Arguments ge_ready {T}.

Section OcpGen.
  Context {T : Type} (O : Ops T).
  Notation lit := (o_dec O).
  Notation zero := (o_zero O). Notation one := (o_one O).
  Infix "+!" := (o_add O) (at level 50, left associativity).
  Infix "*!" := (o_mul O) (at level 40, left associativity).
  Infix "/!" := (o_div O) (at level 40, left associativity).
  Notation "-! x" := (o_opp O x) (at level 35, right associativity).

  (* ---------- the Eigen expressions used ---------- *)
  (* M << a, b, ...; scalars row by row *)
  Definition mrows (r c : nat) (l : list T) : mat T := mtab r c (fun i j => nth (i * c + j) l zero).
  (* MatrixXd::Zero *)
  Definition mzero (r c : nat) : mat T := mtab r c (fun _ _ => zero).
  (* MatrixXd::Identity *)
  Definition mid (n : nat) : mat T := mtab n n (fun i j => if i =? j then one else zero).
  (* -M, a * M *)
  Definition mopp (M : mat T) : mat T := mtab (mr M) (mc M) (fun i j => -! mget O M i j).
  Definition mscale (a : T) (M : mat T) : mat T := mtab (mr M) (mc M) (fun i j => a *! mget O M i j).
  (* blocks in a comma initialiser: one below the other, side by side *)
  Definition below (M N : mat T) : mat T :=
    mtab (mr M + mr N) (mc M) (fun i j => if i <? mr M then mget O M i j else mget O N (i - mr M) j).
  Definition beside (M N : mat T) : mat T :=
    mtab (mr M) (mc M + mc N) (fun i j => if j <? mc M then mget O M i j else mget O N i (j - mc M)).
  (* a * VectorXd::Ones(n) *)
  Definition vones (n : nat) (a : T) : vec T := vconst n (a *! one).
  (* M.diagonal() << v on a zero matrix *)
  Definition mdiag (v : vec T) : mat T :=
    mtab (length v) (length v) (fun i j => if i =? j then vget O v i else zero).
  (* M(i,j) = x *)
  Definition mset (M : mat T) (i j : nat) (x : T) : mat T :=
    mtab (mr M) (mc M) (fun a b => if (a =? i) && (b =? j) then x else mget O M a b).
  (* for k: M(i(k)-1, j(k)-1) = v(k) *)
  Definition mfill (M : mat T) (is js : list nat) (vs : list T) : mat T :=
    fold_left (fun M p => mset M (fst (fst p) - 1) (snd (fst p) - 1) (snd p)) (combine (combine is js) vs) M.
  (* a vector as a matrix with one column *)
  Definition colmat (v : vec T) : mat T := mkMat (length v) 1 v.

  (* ---------- CopyOverHorizon ---------- *)
  (* seq(k) = M through the mutable view, matrix_sequence.h:46-51.  Eigen asserts that the sizes agree. *)
  Definition mseq_store (s : mseq T) (k : Z) (M : mat T) : res (mseq T) :=
    throw_unless (negb ((k <? 0) || (ms_N s <=? k))%Z) EIndex ;;
    p <- imul k (ms_nr s) ;;
    off <- imul p (ms_nc s) ;;
    ub_unless ((Z.of_nat (mr M) =? ms_nr s) && (Z.of_nat (mc M) =? ms_nc s) && mat_ok M)%Z UBSize ;;
    ub_unless (Z.to_nat off + mr M * mc M <=? length (ms_data s)) UBSize ;;
    Ok (mkMseq (ms_N s) (ms_nr s) (ms_nc s) (ms_nel s)
          (firstn (Z.to_nat off) (ms_data s) ++ me M ++ skipn (Z.to_nat off + mr M * mc M) (ms_data s))).

  (* the loop over 0..N, ocp_generator.cc:396-411 *)
  Definition copy_stage (st : stage T) (i : nat) (p : mpc_own T) : res (mpc_own T) :=
    let k := Z.of_nat i in
    Q <- mseq_store (o_Q p) k (s_Q st) ;;
    R <- mseq_store (o_R p) k (s_R st) ;;
    S <- mseq_store (o_S p) k (s_S st) ;;
    q <- mseq_store (o_q p) k (colmat (s_q st)) ;;
    r <- mseq_store (o_r p) k (colmat (s_r st)) ;;
    E <- mseq_store (o_E p) k (if i =? 0 then mzero (mr (s_E st)) (mc (s_E st)) else s_E st) ;;
    L <- mseq_store (o_L p) k (s_L st) ;;
    d <- mseq_store (o_d p) k (colmat (s_d st)) ;;
    Ok (mkMO Q R S q r (o_A p) (o_B p) (o_c p) E L d (o_x0 p)).
  (* the loop over 0..N-1, ocp_generator.cc:414-418 *)
  Definition copy_dynamics (st : stage T) (i : nat) (p : mpc_own T) : res (mpc_own T) :=
    let k := Z.of_nat i in
    A <- mseq_store (o_A p) k (s_A st) ;;
    B <- mseq_store (o_B p) k (s_B st) ;;
    c <- mseq_store (o_c p) k (colmat (s_c st)) ;;
    Ok (mkMO (o_Q p) (o_R p) (o_S p) (o_q p) (o_r p) A B c (o_E p) (o_L p) (o_d p) (o_x0 p)).
  (* OcpGenerator::CopyOverHorizon, ocp_generator.cc:365-421; int arithmetic is checked *)
  Definition CopyOverHorizon (g : gen T) (st : stage T) (N : Z) : res (gen T) :=
    let nx := Z.of_nat (mr (s_Q st)) in
    let nu := Z.of_nat (mr (s_R st)) in
    let nc := Z.of_nat (mr (s_E st)) in
    w <- iadd nx nu ;;
    N1 <- iadd N 1 ;;
    nz <- imul w N1 ;;
    nl <- imul nx N1 ;;
    nv <- imul nc N1 ;;
    Q <- mseq_new O N1 nx nx ;;
    R <- mseq_new O N1 nu nu ;;
    S <- mseq_new O N1 nu nx ;;
    q <- mseq_new O N1 nx 1 ;;
    r <- mseq_new O N1 nu 1 ;;
    A <- mseq_new O N nx nx ;;
    B <- mseq_new O N nx nu ;;
    c <- mseq_new O N nx 1 ;;
    E <- mseq_new O N1 nc nx ;;
    L <- mseq_new O N1 nc nu ;;
    d <- mseq_new O N1 nc 1 ;;
    p <- for_n (Z.to_nat (N + 1)) (copy_stage st) (mkMO Q R S q r A B c E L d (s_x0 st)) ;;
    p <- for_n (Z.to_nat N) (copy_dynamics st) p ;;
    Ok (mkGen p (ge_Asim g) (ge_Bsim g) (ge_Csim g) (ge_Dsim g) (ge_T g) nz nl nv N nx nu nc true).

  (* ---------- the public methods ---------- *)
  (* OcpGenerator(), ocp_generator.h:42 and 166-200 *)
  Definition gen_new : gen T :=
    mkGen (mkMO mseq_default mseq_default mseq_default mseq_default mseq_default mseq_default mseq_default
                mseq_default mseq_default mseq_default mseq_default [])
          (mkMat 0 0 []) (mkMat 0 0 []) (mkMat 0 0 []) (mkMat 0 0 []) 0 0 0 0 0 0 0 0 false.

  (* The body shared by the four creators: the check of N, CopyOverHorizon, the simulation data
     (ocp_generator.cc:74-77, 161-168; 172-175, 236-243; 246-248, 307-314; 320-322, 355-362). *)
  Definition gen_create (st : stage T) (C : mat T) (Tsim : Z) (g : gen T) (N : Z) : gen T * res unit :=
    if (N <=? 0)%Z then (g, Throw EHorizon)
    else match CopyOverHorizon g st N with
         | Ok g' => (mkGen (ge_own g') (s_A st) (s_B st) C (mzero (mr C) (mc (s_B st))) Tsim
                           (ge_nz g') (ge_nl g') (ge_nv g') (ge_N g') (ge_nx g') (ge_nu g') (ge_nc g') (ge_ready g'),
                     Ok tt)
         | Throw e => (g, Throw e)
         | UB u => (g, UB u)
         end.

  (* ocp_generator.cc:18-41, 43-54, 56-71, 423-427 and ocp_generator.h:150-159 *)
  Definition GetFBstabInput (g : gen T) : res (mpc_own T) :=
    throw_unless (ge_ready g) ENoProblem ;; Ok (ge_own g).
  Definition GetFBstabInputRef (g : gen T) : res (mpc_ref T) :=
    throw_unless (ge_ready g) ENoProblem ;; Ok (ref_of_own (ge_own g)).
  Definition GetSimulationInputs (g : gen T) : res (sim T) :=
    throw_unless (ge_ready g) ENoProblem ;;
    Ok (mkSim (o_x0 (ge_own g)) (ge_Asim g) (ge_Bsim g) (ge_Csim g) (ge_Dsim g) (ge_T g)).
  Definition ProblemSize (g : gen T) : Z * Z * Z * Z := (ge_N g, ge_nx g, ge_nu g, ge_nc g).

  (* ---------- the four examples ---------- *)
  (* DoubleIntegrator, ocp_generator.cc:319-363 *)
  Notation i n := (o_dec O n%Z 0%Z).
  Definition di_stage : stage T :=
    mkStage (mrows 2 2 [i 2; i 0; i 0; i 1]) (mrows 1 1 [i 3]) (mrows 1 2 [i 1; i 0]) [-! i 2; i 0] [i 0]
            (mrows 2 2 [i 1; i 1; i 0; i 1]) (mrows 2 1 [i 0; i 1]) [i 0; i 0]
            (mrows 6 2 [-! i 1; i 0; i 0; -! i 1; i 1; i 0; i 0; i 1; i 0; i 0; i 0; i 0])
            (mrows 6 1 [i 0; i 0; i 0; i 0; -! i 1; i 1]) [i 0; i 0; -! i 2; -! i 2; -! i 1; -! i 1]
            [i 0; i 0].
  Definition DoubleIntegrator : gen T -> Z -> gen T * res unit := gen_create di_stage (mid 2) 40.

  (* ServoMotor, ocp_generator.cc:245-315 *)
  Definition servo_C : mat T :=
    let ktheta := lit 12802 (-1) in let rho := lit 20 0 in
    mrows 2 4 [one; zero; zero; zero; ktheta; zero; (-! ktheta) /! rho; zero].
  Definition servo_stage : stage T :=
    let kt := lit 10 0 in let bl := lit 25 0 in let Jm := lit 5 (-1) in let bm := lit 1 (-1) in
    let ktheta := lit 12802 (-1) in let RR := lit 20 0 in let rho := lit 20 0 in let Jl := lit 20 0 *! Jm in
    let umax := lit 220 0 in let ymax := lit 785358 (-4) in
    let A := mrows 4 4
      [zero; one; zero; zero;
       (-! ktheta) /! Jl; (-! bl) /! Jl; ktheta /! (rho *! Jl); zero;
       zero; zero; zero; one;
       ktheta /! (rho *! Jm); zero; (-! ktheta) /! (rho *! rho *! Jm); (-! (bm +! kt *! kt /! RR)) /! Jm] in
    let B := mrows 4 1 [zero; zero; zero; kt /! (RR *! Jm)] in
    let ts := lit 5 (-2) in
    let A := madd O (mid 4) (mscale ts A) in
    let B := mscale ts B in
    let Q := mset (mzero 4 4) 0 0 (lit 1000 0) in
    let R := mset (mzero 1 1) 0 0 (lit 1 (-4)) in
    let pi := lit 31415926535897 (-13) in
    let xtrg := [lit 30 0 *! pi /! lit 180 0; zero; zero; zero] in
    let utrg := [zero] in
    let c1 := mtab 1 4 (fun _ j => mget O servo_C 1 j) in
    mkStage Q R (mzero 1 4) (mv O (mopp Q) xtrg) (mv O (mopp R) utrg) A B (vconst 4 zero)
            (below (below c1 (mopp c1)) (mzero 2 4)) (mrows 4 1 [zero; zero; one; -! one])
            [-! ymax; -! ymax; -! umax; -! umax] (vconst 4 zero).
  Definition ServoMotor : gen T -> Z -> gen T * res unit := gen_create servo_stage servo_C 40.

  (* SpacecraftRelativeMotion, ocp_generator.cc:171-244; pow(a, 3) is modelled as a * a * a *)
  Definition craft_stage : stage T :=
    let mu := lit 3986004418 (-4) in let Re := lit 6371 0 in let alt := lit 650 0 in
    let a := Re +! alt in
    let n := o_sqrt O (mu /! (a *! a *! a)) in
    let two := lit 2 0 in
    let A21 := mrows 3 3 [two *! n *! n; zero; zero; zero; zero; zero; zero; zero; (-! n) *! n] in
    let A22 := mrows 3 3 [zero; two *! n; zero; (-! two) *! n; zero; zero; zero; zero; zero] in
    let A := below (beside (mzero 3 3) (mid 3)) (beside A21 A22) in
    let B := below (mzero 3 3) (mid 3) in
    let ts := lit 30 0 in
    let A := madd O (mid 6) (mscale ts A) in
    let B := mscale ts B in
    let B := mm O A B in
    let umax := lit 1 (-3) in let vmax := lit 1 (-3) in
    mkStage (mdiag (vones 3 one ++ vones 3 (lit 1 (-3)))) (mdiag (vones 3 one)) (mzero 3 6)
            (vconst 6 zero) (vconst 3 zero) A B (vconst 6 zero)
            (below (mzero 6 6) (below (beside (mzero 3 3) (mid 3)) (beside (mzero 3 3) (mopp (mid 3)))))
            (below (below (mid 3) (mopp (mid 3))) (mzero 6 3))
            (vones 6 (-! umax) ++ vones 6 (-! vmax))
            [-! lit 28 (-1); -! lit 1 (-2); -! one; zero; zero; zero].
  Definition SpacecraftRelativeMotion : gen T -> Z -> gen T * res unit := gen_create craft_stage (mid 6) 100.

  (* CopolymerizationReactor, ocp_generator.cc:73-169.  [sin] is std::sin, about which nothing is assumed. *)
  Definition reactor_C : mat T :=
    let z := zero in let o := one in
    mrows 4 18
     ([lit 8 (-1); z; z; o; z; z; lit 416666666666667 (-16); lit 333333333333333 (-15); z; z;
       z; lit 259553571428571 (-13); lit 180245535714286 (-14); z; z; z; z; z] ++
      [z; -! lit 340248962655602 (-15); z; z; lit 874172185430464 (-15); z; z; z;
       -! lit 413793103448276 (-15); z; z; z; z; -! lit 930000000000000 (-15); z; z; z; z] ++
      [z; z; lit 47244 (-5); z; z; lit 63636 (-5); z; z; z; -! lit 52593 (-5); -! lit 2952 (-4); z; z; z;
       z; -! lit 91992 (-4); z; z] ++
      [z; z; z; z; z; z; z; z; z; z; z; z; z; z; z; z; lit 16757 (-4); lit 18214 (-4)]).
  Definition reactor_stage (sin : T -> T) : stage T :=
    let A := mfill (mzero 18 18)
      [1; 2; 3; 4; 5; 6; 7; 8; 7; 8; 9; 10; 11; 12; 13; 12; 13; 14; 15; 16; 15; 16; 17; 18; 17; 18]
      [1; 2; 3; 4; 5; 6; 7; 7; 8; 8; 9; 10; 11; 12; 12; 13; 13; 14; 15; 15; 16; 16; 17; 17; 18; 18]
      [lit 55531 (-5); lit 81264 (-5); lit 82131 (-5); lit 30408 (-5); lit 71811 (-5); lit 72276 (-5);
       lit 97319 (-5); lit 12353 (-5); -! lit 16471 (-5); lit 98966 (-5); lit 70834 (-5); lit 69048 (-5);
       lit 83152 (-5); -! lit 16569 (-6); lit 7277 (-5); -! lit 40608 (-6); lit 17835 (-5); lit 53526 (-5);
       -! lit 15422 (-6); lit 4805 (-5); -! lit 93847 (-6); lit 2924 (-4); -! lit 22577 (-5); lit 43126 (-5);
       -! lit 38505 (-5); lit 2517 (-4)] in
    let B := mfill (mzero 18 5)
      [1; 2; 3; 4; 5; 6; 7; 8; 9; 10; 11; 12; 13; 14; 15; 16; 17; 18]
      [1; 1; 1; 2; 2; 2; 3; 3; 3; 3; 4; 5; 5; 5; 5; 5; 5; 5]
      [lit 18899 (-5); lit 22577 (-5); lit 11347 (-5); lit 14614 (-5); lit 21282 (-5); lit 21347 (-5);
       lit 24707 (-5); lit 15512 (-6); lit 21145 (-5); lit 41785 (-5); lit 11415 (-5); lit 14554 (-5);
       lit 29448 (-4); lit 1859 (-4); lit 4805 (-5); lit 36229 (-5); lit 21563 (-5); lit 41905 (-5)] in
    let umax := lit 5 0 /! lit 100 0 in
    mkStage (mm O (mtrans O reactor_C) reactor_C) (meye O 5 (lit 1 (-1))) (mzero 5 18)
            (vconst 18 zero) (vconst 5 zero) A B (vconst 18 zero)
            (mzero 10 18) (below (mid 5) (mopp (mid 5))) (vones 10 (-! umax))
            (tab 18 (fun k => lit 2 (-1) *! sin (lit (Z.of_nat (k + 1)) 0))).
  Definition CopolymerizationReactor (sin : T -> T) : gen T -> Z -> gen T * res unit :=
    gen_create (reactor_stage sin) reactor_C 200.
End OcpGen.
