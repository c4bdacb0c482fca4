(* The text FBstab prints: the format strings of the Print* routines and the 100-byte buffer they go
   through (fbstab_algorithm-impl.h:408-541, tools/output_stream.h:19-21). *)
From Coq Require Import ZArith String Ascii Lia List Floats.SpecFloat.
From Verif Require Export Algorithm.
Notation "s +++ t" := (String.append s t) (at level 60, right associativity) : string_scope.
Local Open Scope string_scope.
Local Open Scope Z_scope.

(* ---------- snprintf conversions (C11 7.21.6.1) ---------- *)
(* n blanks *)
Fixpoint blanks (n : nat) : string := match n with O => "" | S n => String " " (blanks n) end.
(* a field of minimum width w, right justified *)
Definition field (w : nat) (s : string) : string := blanks (w - String.length s) +++ s.
(* the n lowest decimal digits of z, most significant first *)
Definition digit (z : Z) : ascii := ascii_of_nat (48 + Z.to_nat (z mod 10)).
Fixpoint low_digits (n : nat) (z : Z) : string :=
  match n with O => "" | S n => low_digits n (z / 10) +++ String (digit z) "" end.
(* the decimal digits of z >= 0, without leading zeros *)
Fixpoint all_digits (fuel : nat) (z : Z) : string :=
  match fuel with
  | O => ""
  | S f => if z <? 10 then String (digit z) "" else all_digits f (z / 10) +++ String (digit z) ""
  end.
Definition fmt_nat (z : Z) : string := all_digits (Z.to_nat (Z.log2 z + 1)) z.
Definition minus (s : bool) : string := if s then "-" else "".
(* %d *)
Definition fmt_d (z : Z) : string := minus (z <? 0) +++ fmt_nat (Z.abs z).
(* num/den rounded to an integer, ties to even *)
Definition round_even (num den : Z) : Z :=
  let q := num / den in let r := num mod den in
  if (2 * r <? den) then q else if (den <? 2 * r) then q + 1 else if Z.even q then q else q + 1.
(* 10^k <= num/den *)
Definition pow10_le (k num den : Z) : bool :=
  if 0 <=? k then (10 ^ k * den <=? num) else (den <=? num * 10 ^ (- k)).
(* the decimal exponent of num/den; doubles have exponents between -324 and 308 *)
Fixpoint find_exp (fuel : nat) (k num den : Z) : Z :=
  match fuel with
  | O => k
  | S f => if pow10_le k num den then k else find_exp f (k - 1) num den
  end.
Definition exp10 (num den : Z) : Z := find_exp 632 308 num den.
(* at least two digits *)
Definition fmt_exp (k : Z) : string :=
  (if k <? 0 then "e-" else "e+") +++ (if Z.abs k <? 100 then low_digits 2 (Z.abs k) else low_digits 3 (Z.abs k)).
(* num/den > 0 with p digits after the point *)
Definition fmt_e_pos (p : nat) (num den : Z) : string :=
  let k := exp10 num den in
  let s := Z.of_nat p - k in                       (* round num/den * 10^s to an integer *)
  let d := if 0 <=? s then round_even (num * 10 ^ s) den else round_even num (den * 10 ^ (- s)) in
  let '(d, k) := if d =? 10 ^ (Z.of_nat p + 1) then (10 ^ Z.of_nat p, k + 1) else (d, k) in
  low_digits 1 (d / 10 ^ Z.of_nat p) +++ "." +++ low_digits p d +++ fmt_exp k.
(* numerator and denominator of m * 2^e *)
Definition frac_num (m : positive) (e : Z) : Z := Z.pos m * 2 ^ Z.max e 0.
Definition frac_den (e : Z) : Z := 2 ^ Z.max (- e) 0.
(* %.pe, p > 0 *)
Definition fmt_e (p : nat) (x : F64) : string :=
  match x with
  | S754_nan => "nan"
  | S754_infinity s => minus s +++ "inf"
  | S754_zero s => minus s +++ "0." +++ low_digits p 0 +++ "e+00"
  | S754_finite s m e => minus s +++ fmt_e_pos p (frac_num m e) (frac_den e)
  end.
(* %.pf, p > 0 *)
Definition fmt_f (p : nat) (x : F64) : string :=
  match x with
  | S754_nan => "nan"
  | S754_infinity s => minus s +++ "inf"
  | S754_zero s => minus s +++ "0." +++ low_digits p 0
  | S754_finite s m e =>
      let d := round_even (frac_num m e * 10 ^ Z.of_nat p) (frac_den e) in
      minus s +++ fmt_nat (d / 10 ^ Z.of_nat p) +++ "." +++ low_digits p d
  end.

(* ---------- the Print* routines ---------- *)
(* snprintf(buff, 100, ...) then os.Print(buff): at most 99 characters arrive *)
Definition snprintf100 (s : string) : string := substring 0 99 s.
Definition newline : string := String "010" "".
Definition sp2 : string := "  ".

(* PrintFinal's text for the exit flag, impl.h:500-521 *)
Definition flag_text (e : exit_flag) : string :=
  match e with
  | SUCCESS => " Success"
  | DIVERGENCE => " Divergence"
  | MAXITERATIONS => " Iteration limit exceeded"
  | PRIMAL_INFEASIBLE => " Primal Infeasibility"
  | DUAL_INFEASIBLE => " Dual Infeasibility"
  | PRIMAL_DUAL_INFEASIBLE => " Primal-Dual Infeasibility"
  end.

(* the strings handed to snprintf's buffer, one per call, impl.h:420-541 *)
Definition raw_lines (ev : event F64) : list string :=
  match ev with
  | EvIterHeader =>                                                       (* impl.h:436-438 *)
      [field 12 "prox iter" +++ sp2 +++ field 12 "newton iters" +++ sp2 +++ field 12 "|rz|" +++ sp2 +++
       field 12 "|rl|" +++ sp2 +++ field 12 "|rv|" +++ sp2 +++ field 12 "Inner res" +++ sp2 +++
       field 12 "Inner tol" +++ newline]
  | EvIterLine p n rz rl rv ri tol =>                                     (* impl.h:422-424 *)
      [field 12 (fmt_d p) +++ sp2 +++ field 12 (fmt_d n) +++ sp2 +++ field 12 (fmt_e 4 rz) +++ sp2 +++
       field 12 (fmt_e 4 rl) +++ sp2 +++ field 12 (fmt_e 4 rv) +++ sp2 +++ field 12 (fmt_e 4 ri) +++ sp2 +++
       field 12 (fmt_e 4 tol) +++ newline]
  | EvDetHeader p n r =>                                                  (* impl.h:451-456 *)
      ["Begin Prox Iter: " +++ fmt_d p +++ ", Total Newton Iters: " +++ fmt_d n +++ ", Residual: " +++
         field 6 (fmt_e 4 r) +++ newline;
       field 10 "Iter" +++ sp2 +++ field 10 "Step Size" +++ sp2 +++ field 10 "|rz|" +++ sp2 +++
         field 10 "|rl|" +++ sp2 +++ field 10 "|rv|" +++ newline]
  | EvDetLine i t rz rl rv =>                                             (* impl.h:468-469 *)
      [field 10 (fmt_d i) +++ sp2 +++ field 10 (fmt_e 6 t) +++ sp2 +++ field 10 (fmt_e 6 rz) +++ sp2 +++
       field 10 (fmt_e 6 rl) +++ sp2 +++ field 10 (fmt_e 6 rv) +++ newline]
  | EvDetFooter ri tol =>                                                 (* impl.h:483-486 *)
      ["Exiting inner loop. Inner residual: " +++ field 6 (fmt_e 4 ri) +++ ", Inner tolerance: " +++
       field 6 (fmt_e 4 tol) +++ newline]
  | EvFinal e ms p pm n nm rz rl rv tol =>                                (* impl.h:498-539 *)
      [newline +++ "Optimization completed!  Exit code:"; flag_text e +++ newline;
       "Time elapsed: " +++ fmt_f 6 ms +++ " ms (-1.0 indicates timing disabled)" +++ newline;
       "Proximal iterations: " +++ fmt_d p +++ " out of " +++ fmt_d pm +++ newline;
       "Newton iterations: " +++ fmt_d n +++ " out of " +++ fmt_d nm +++ newline;
       field 10 "|rz|" +++ sp2 +++ field 10 "|rl|" +++ sp2 +++ field 10 "|rv|" +++ sp2 +++ field 10 "Tolerance" +++ newline;
       field 10 (fmt_e 4 rz) +++ sp2 +++ field 10 (fmt_e 4 rl) +++ sp2 +++ field 10 (fmt_e 4 rv) +++ sp2 +++
         field 10 (fmt_e 4 tol) +++ newline;
       newline]
  end%list.
(* the strings that reach the output stream *)
Definition out_lines (ev : event F64) : list string := map snprintf100 (raw_lines ev).
Definition out_text (l : list (event F64)) : string := String.concat "" (flat_map out_lines l).

