(* C65: the numbers a Solve call prints can be read back from the text: counters exactly, residuals,
   tolerances and step lengths to the printed number of digits. *)
From Coq Require Import ZArith QArith Qabs Qpower Qfield String Ascii Lia Lqa List Floats.SpecFloat.
From Verif Require Export Text PropsText.
Import ListNotations.
Local Open Scope string_scope.
Local Open Scope Z_scope.

(* ---------- specification: reading text ---------- *)
(* the value of a decimal digit *)
Definition digit_val (c : ascii) : option Z :=
  let n := Z.of_nat (nat_of_ascii c) in if (48 <=? n) && (n <=? 57) then Some (n - 48) else None.
(* the digits at the start of s: the number acc they continue, how many there are, and what follows *)
Fixpoint digits (s : string) (acc : Z) (n : nat) : Z * nat * string :=
  match s with
  | EmptyString => (acc, n, s)
  | String c s' => match digit_val c with Some d => digits s' (10 * acc + d) (S n) | None => (acc, n, s) end
  end.
(* an optional sign, at least one digit *)
Definition signed (s : string) : option (bool * Z * string) :=
  let '(neg, s) := match s with String "-" s => (true, s) | String "+" s => (false, s) | _ => (false, s) end in
  let '(z, n, s) := digits s 0 0 in
  match n with O => None | S _ => Some (neg, z, s) end.
Definition put_sign (neg : bool) (z : Z) : Z := if neg then - z else z.
(* a whole string as an integer *)
Definition read_int (s : string) : option Z :=
  match signed s with Some (neg, z, "") => Some (put_sign neg z) | _ => None end.
(* a whole string as a decimal number: digits, a point, digits and, optionally, e and a power of ten *)
Definition read_num (s : string) : option Q :=
  match signed s with
  | Some (neg, a, String "." s) =>
      let '(m, n, s) := digits s a 0 in
      let q := (inject_Z (put_sign neg m) / inject_Z (10 ^ Z.of_nat n))%Q in
      match s with
      | "" => Some q
      | String "e" s => match read_int s with Some k => Some (q * (inject_Z 10) ^ k)%Q | None => None end
      | _ => None
      end
  | _ => None
  end.
(* the words of a text: the maximal pieces without blanks, commas and line ends *)
Definition is_sep (c : ascii) : bool := (Ascii.eqb c " " || Ascii.eqb c "," || Ascii.eqb c "010")%bool.
Fixpoint words_from (w : string) (s : string) : list string :=
  match s with
  | EmptyString => match w with "" => [] | _ => [w] end
  | String c s' => if is_sep c then match w with "" => words_from "" s' | _ => w :: words_from "" s' end
                   else words_from (w +++ String c "") s'
  end.
Definition words (s : string) : list string := words_from "" s.

(* the value of a finite double *)
Definition dval (x : F64) : Q :=
  match x with
  | S754_finite s m e => (inject_Z (put_sign s (Z.pos m)) * (inject_Z 2) ^ e)%Q
  | _ => 0%Q
  end.
(* the word w shows the double x with p digits after the leading one *)
Definition shows (p : nat) (w : string) (x : F64) : Prop :=
  match x with
  | S754_nan => w = "nan"
  | S754_infinity s => w = if s then "-inf" else "inf"
  | _ => exists q, read_num w = Some q /\
                   (Qabs (q - dval x) * inject_Z (2 * 10 ^ Z.of_nat p) <= Qabs (dval x))%Q
  end.
(* ... with p digits after the point *)
Definition shows_fixed (p : nat) (w : string) (x : F64) : Prop :=
  match x with
  | S754_nan => w = "nan"
  | S754_infinity s => w = if s then "-inf" else "inf"
  | _ => exists q, read_num w = Some q /\ (Qabs (q - dval x) * inject_Z (2 * 10 ^ Z.of_nat p) <= 1)%Q
  end.
(* a double (SpecFloat.v): 53 bits, exponents in range *)
Definition double (x : F64) : Prop := valid_binary 53 1024 x = true.
(* what a word of the output says: a fixed text, an integer, a double in %.pe or in %.pf *)
Inductive item : Type := Txt (t : string) | Int (z : Z) | Num (p : nat) (x : F64) | Fix (p : nat) (x : F64).
Definition says (w : string) (i : item) : Prop :=
  match i with
  | Txt t => w = t
  | Int z => read_int w = Some z
  | Num p x => shows p w x
  | Fix p x => shows_fixed p w x
  end.
Definition exit_words (e : exit_flag) : list string :=
  match e with
  | SUCCESS => ["Success"]
  | DIVERGENCE => ["Divergence"]
  | MAXITERATIONS => ["Iteration"; "limit"; "exceeded"]
  | PRIMAL_INFEASIBLE => ["Primal"; "Infeasibility"]
  | DUAL_INFEASIBLE => ["Dual"; "Infeasibility"]
  | PRIMAL_DUAL_INFEASIBLE => ["Primal-Dual"; "Infeasibility"]
  end%list.
(* what the text of each event says, word by word *)
Definition message (ev : event F64) : list item :=
  match ev with
  | EvIterHeader => map Txt ["prox"; "iter"; "newton"; "iters"; "|rz|"; "|rl|"; "|rv|"; "Inner"; "res"; "Inner"; "tol"]
  | EvIterLine p n rz rl rv ri tol => [Int p; Int n; Num 4 rz; Num 4 rl; Num 4 rv; Num 4 ri; Num 4 tol]
  | EvDetHeader p n r =>
      map Txt ["Begin"; "Prox"; "Iter:"] ++ [Int p] ++ map Txt ["Total"; "Newton"; "Iters:"] ++ [Int n; Txt "Residual:"; Num 4 r] ++
      map Txt ["Iter"; "Step"; "Size"; "|rz|"; "|rl|"; "|rv|"]
  | EvDetLine i t rz rl rv => [Int i; Num 6 t; Num 6 rz; Num 6 rl; Num 6 rv]
  | EvDetFooter ri tol =>
      map Txt ["Exiting"; "inner"; "loop."; "Inner"; "residual:"] ++ [Num 4 ri] ++ map Txt ["Inner"; "tolerance:"] ++ [Num 4 tol]
  | EvFinal e ms p pm n nm rz rl rv tol =>
      map Txt ["Optimization"; "completed!"; "Exit"; "code:"] ++ map Txt (exit_words e) ++
      map Txt ["Time"; "elapsed:"] ++ [Fix 6 ms] ++ map Txt ["ms"; "(-1.0"; "indicates"; "timing"; "disabled)"] ++
      map Txt ["Proximal"; "iterations:"] ++ [Int p] ++ map Txt ["out"; "of"] ++ [Int pm] ++
      map Txt ["Newton"; "iterations:"] ++ [Int n] ++ map Txt ["out"; "of"] ++ [Int nm] ++
      map Txt ["|rz|"; "|rl|"; "|rv|"; "Tolerance"] ++ [Num 4 rz; Num 4 rl; Num 4 rv; Num 4 tol]
  end%list.
(* the numbers of an event are doubles *)
Definition doubles (ev : event F64) : Prop :=
  match ev with
  | EvIterHeader => True
  | EvIterLine _ _ rz rl rv ri tol => double rz /\ double rl /\ double rv /\ double ri /\ double tol
  | EvDetHeader _ _ r => double r
  | EvDetLine _ t rz rl rv => double t /\ double rz /\ double rl /\ double rv
  | EvDetFooter ri tol => double ri /\ double tol
  | EvFinal _ _ _ _ _ _ rz rl rv tol => double rz /\ double rl /\ double rv /\ double tol
  end.

(* ---------- proofs ---------- *)
Lemma digit_digit z : digit_val (digit z) = Some (z mod 10).
Proof.
  unfold digit_val, digit. pose proof (Z.mod_pos_bound z 10 ltac:(lia)).
  rewrite nat_ascii_embedding by lia. rewrite Nat2Z.inj_add, Z2Nat.id by lia. change (Z.of_nat 48) with 48.
  destruct (Z.leb_spec 48 (48 + z mod 10)); [|lia]. destruct (Z.leb_spec (48 + z mod 10) 57); [|lia].
  cbn [andb]. f_equal. lia.
Qed.
(* s does not start with a digit *)
Definition stops (s : string) : Prop := match s with EmptyString => True | String c _ => digit_val c = None end.
Lemma digits_stop s acc n : stops s -> digits s acc n = (acc, n, s).
Proof. destruct s as [|c s]; [reflexivity|]. cbn [stops digits]. intros ->. reflexivity. Qed.
Lemma app_assoc_s a b c : (a +++ b) +++ c = a +++ (b +++ c).
Proof. induction a as [|x a IH]; [reflexivity|]. cbn [String.append]. rewrite IH. reflexivity. Qed.
Lemma digits_low k : forall z rest acc n, digits (low_digits k z +++ rest) acc n = digits rest (acc * 10 ^ Z.of_nat k + z mod 10 ^ Z.of_nat k) (n + k).
Proof.
  induction k as [|k IH]; intros z rest acc n.
  - cbn [low_digits String.append]. change (10 ^ Z.of_nat 0) with 1. rewrite Z.mod_1_r, Nat.add_0_r. f_equal. lia.
  - cbn [low_digits]. rewrite app_assoc_s, IH. cbn [String.append digits]. rewrite digit_digit.
    replace (n + S k)%nat with (S (n + k)) by lia. f_equal.
    rewrite Nat2Z.inj_succ, Z.pow_succ_r by lia.
    assert (P : 0 < 10 ^ Z.of_nat k) by (apply Z.pow_pos_nonneg; lia).
    rewrite (Z.rem_mul_r z 10 (10 ^ Z.of_nat k)) by lia. lia.
Qed.
Lemma digits_all fuel : forall z rest acc n, 0 <= z < 2 ^ Z.of_nat fuel -> (1 <= fuel)%nat ->
  exists k, (1 <= k)%nat /\ digits (all_digits fuel z +++ rest) acc n = digits rest (acc * 10 ^ Z.of_nat k + z) (n + k).
Proof.
  induction fuel as [|f IH]; intros z rest acc n Hz Hf; [lia|]. cbn [all_digits].
  destruct (Z.ltb_spec z 10).
  - exists 1%nat. split; [lia|]. cbn [String.append digits]. rewrite digit_digit, Z.mod_small by lia.
    change (10 ^ Z.of_nat 1) with 10. replace (n + 1)%nat with (S n) by lia. f_equal. lia.
  - rewrite Nat2Z.inj_succ, Z.pow_succ_r in Hz by lia.
    assert (F1 : (1 <= f)%nat) by (destruct f; [cbn in Hz; lia|lia]).
    assert (0 <= z / 10 < 2 ^ Z.of_nat f).
    { split; [apply Z.div_pos; lia|]. apply Z.div_lt_upper_bound; lia. }
    destruct (IH (z / 10) (String (digit z) "" +++ rest) acc n H0 F1) as (k & K1 & E).
    exists (S k). split; [lia|]. rewrite app_assoc_s, E. cbn [String.append digits]. rewrite digit_digit.
    replace (n + S k)%nat with (S (n + k)) by lia. f_equal.
    rewrite Nat2Z.inj_succ, Z.pow_succ_r by lia. pose proof (Z.div_mod z 10 ltac:(lia)). lia.
Qed.
Lemma digits_nat z rest acc n : 0 <= z ->
  exists k, (1 <= k)%nat /\ digits (fmt_nat z +++ rest) acc n = digits rest (acc * 10 ^ Z.of_nat k + z) (n + k).
Proof.
  intro Hz. unfold fmt_nat. apply digits_all.
  - split; [exact Hz|]. pose proof (Z.log2_nonneg z). rewrite Z2Nat.id by lia.
    destruct (Z.eq_dec z 0) as [->|]; [reflexivity|]. apply Z.log2_spec. lia.
  - pose proof (Z.log2_nonneg z). lia.
Qed.
(* the first character of a number is neither a sign nor anything else but a digit *)
Definition starts (s : string) : Prop := match s with EmptyString => False | String c _ => digit_val c <> None end.
Lemma starts_low k z rest : (1 <= k)%nat -> starts (low_digits k z +++ rest).
Proof.
  revert z rest. induction k as [|k IH]; intros z rest Hk; [lia|]. cbn [low_digits]. rewrite app_assoc_s.
  destruct k as [|k]; [|apply IH; lia]. cbn [low_digits String.append starts]. rewrite digit_digit. discriminate.
Qed.
Lemma starts_all fuel : forall z rest, (1 <= fuel)%nat -> 0 <= z < 2 ^ Z.of_nat fuel -> starts (all_digits fuel z +++ rest).
Proof.
  induction fuel as [|f IH]; intros z rest Hf Hz; [lia|]. cbn [all_digits].
  destruct (Z.ltb_spec z 10); [cbn [String.append starts]; rewrite digit_digit; discriminate|].
  rewrite app_assoc_s. rewrite Nat2Z.inj_succ, Z.pow_succ_r in Hz by lia.
  apply IH; [destruct f; [cbn in Hz; lia|lia]|]. split; [apply Z.div_pos; lia|apply Z.div_lt_upper_bound; lia].
Qed.
Lemma starts_nat z rest : 0 <= z -> starts (fmt_nat z +++ rest).
Proof.
  intro Hz. unfold fmt_nat. pose proof (Z.log2_nonneg z). apply starts_all; [lia|]. split; [exact Hz|].
  rewrite Z2Nat.id by lia. destruct (Z.eq_dec z 0) as [->|]; [reflexivity|]. apply Z.log2_spec. lia.
Qed.
Lemma signed_minus neg s z n rest : starts s -> digits s 0 0 = (z, S n, rest) ->
  signed (minus neg +++ s) = Some (neg, z, rest).
Proof.
  intros S0 E. destruct neg; cbn [minus String.append].
  - unfold signed. rewrite E. reflexivity.
  - unfold signed. destruct s as [|c s]; [contradiction|]. cbn [starts] in S0.
    assert (HM : c <> "-"%char) by (intros ->; apply S0; reflexivity).
    assert (HP : c <> "+"%char) by (intros ->; apply S0; reflexivity).
    destruct c as [[] [] [] [] [] [] [] []]; try (rewrite E; reflexivity); congruence.
Qed.
Theorem read_fmt_d z : read_int (fmt_d z) = Some z.
Proof.
  unfold read_int, fmt_d.
  destruct (digits_nat (Z.abs z) "" 0 0 ltac:(lia)) as (k & K & E).
  assert (AN : forall s, s +++ "" = s) by (induction s as [|c s IH]; [reflexivity|cbn; rewrite IH; reflexivity]).
  rewrite AN in E. cbn [digits] in E. destruct k as [|k]; [lia|]. cbn [Nat.add] in E.
  pose proof (starts_nat (Z.abs z) "" ltac:(lia)) as SN. rewrite AN in SN.
  rewrite (signed_minus _ _ _ _ _ SN E). unfold put_sign. destruct (Z.ltb_spec z 0); f_equal; lia.
Qed.

(* decimal exponents *)
Lemma read_exp k : -999 <= k <= 999 -> exists s, fmt_exp k = String "e" s /\ read_int s = Some k.
Proof.
  intro Hk. unfold fmt_exp.
  assert (AN : forall s, s +++ "" = s) by (induction s as [|c s IH]; [reflexivity|cbn; rewrite IH; reflexivity]).
  set (w := if Z.abs k <? 100 then low_digits 2 (Z.abs k) else low_digits 3 (Z.abs k)).
  assert (W : exists n, digits w 0 0 = (Z.abs k, S n, "")).
  { unfold w. destruct (Z.ltb_spec (Z.abs k) 100) as [H|H].
    - exists 1%nat. rewrite <- (AN (low_digits 2 _)), digits_low. cbn [digits]. change (10 ^ Z.of_nat 2) with 100. rewrite Z.mod_small by lia. reflexivity.
    - exists 2%nat. rewrite <- (AN (low_digits 3 _)), digits_low. cbn [digits]. change (10 ^ Z.of_nat 3) with 1000. rewrite Z.mod_small by lia. reflexivity. }
  destruct W as [n W].
  destruct (Z.ltb_spec k 0) as [H|H]; cbn [String.append]; eexists; (split; [reflexivity|]);
    unfold read_int, signed; rewrite W; unfold put_sign; f_equal; lia.
Qed.
Lemma Qpow_Z (b n : Z) : 0 <= n -> (inject_Z b ^ n == inject_Z (b ^ n))%Q.
Proof. intro H. symmetry. apply Zpower_Qpower. exact H. Qed.
Lemma Qpow_pos (b : Z) (n : Z) : 0 < b -> (0 < inject_Z b ^ n)%Q.
Proof.
  intro H. destruct (Z_le_gt_dec 0 n) as [H0|H0].
  - rewrite Qpow_Z by exact H0. change 0%Q with (inject_Z 0). rewrite <- Zlt_Qlt. apply Z.pow_pos_nonneg; lia.
  - replace n with (- (- n)) by lia. rewrite Qpower_opp. apply Qinv_lt_0_compat. rewrite Qpow_Z by lia.
    change 0%Q with (inject_Z 0). rewrite <- Zlt_Qlt. apply Z.pow_pos_nonneg; lia.
Qed.
Lemma round_close num den : 0 < den -> Z.abs (2 * (round_even num den * den - num)) <= den.
Proof.
  intro H. unfold round_even. pose proof (Z.div_mod num den ltac:(lia)) as E. pose proof (Z.mod_pos_bound num den H) as B.
  set (q := num / den) in *. set (r := num mod den) in *.
  destruct (Z.ltb_spec (2 * r) den); [replace (q * den - num) with (- r) by lia; lia|].
  destruct (Z.ltb_spec den (2 * r)); [replace ((q + 1) * den - num) with (den - r) by lia; lia|].
  destruct (Z.even q); [replace (q * den - num) with (- r) by lia; lia|replace ((q + 1) * den - num) with (den - r) by lia; lia].
Qed.
Lemma round_pos num den : 0 <= num -> 0 < den -> 0 <= round_even num den.
Proof.
  intros H0 H. unfold round_even. pose proof (Z.div_pos num den H0 H).
  destruct (_ <? _); [lia|]. destruct (_ <? _); [lia|]. destruct (Z.even _); lia.
Qed.
Definition ratio (num den : Z) : Q := (inject_Z num / inject_Z den)%Q.
Lemma inj_pos d : 0 < d -> (0 < inject_Z d)%Q.
Proof. intro H. change 0%Q with (inject_Z 0). rewrite <- Zlt_Qlt. exact H. Qed.
Lemma pow10_le_spec k num den : 0 < den -> pow10_le k num den = true <-> (inject_Z 10 ^ k <= ratio num den)%Q.
Proof.
  intro H. pose proof (inj_pos den H) as DP. unfold pow10_le, ratio.
  destruct (Z.leb_spec 0 k) as [K|K].
  - rewrite Z.leb_le, Zle_Qle, inject_Z_mult, Qpow_Z by exact K. split; intro L.
    + apply Qle_shift_div_l; assumption.
    + apply (Qmult_le_compat_r _ _ (inject_Z den)) in L; [|lra]. 
      setoid_replace (inject_Z num / inject_Z den * inject_Z den)%Q with (inject_Z num) in L by (field; lra). exact L.
  - assert (TP : (0 < inject_Z (10 ^ (- k)))%Q) by (apply inj_pos, Z.pow_pos_nonneg; lia).
    replace k with (- (- k)) at 2 by lia. rewrite Qpower_opp, Qpow_Z by lia.
    rewrite Z.leb_le, Zle_Qle, inject_Z_mult. set (t := inject_Z (10 ^ (- k))) in *. split; intro L.
    + apply Qle_shift_div_l; [assumption|]. apply (Qmult_le_r _ _ t TP).
      setoid_replace (/ t * inject_Z den * t)%Q with (inject_Z den) by (field; lra). exact L.
    + apply (Qmult_le_compat_r _ _ (inject_Z den * t)) in L; [|apply Qlt_le_weak, Qmult_lt_0_compat; assumption].
      setoid_replace (/ t * (inject_Z den * t))%Q with (inject_Z den) in L by (field; lra).
      setoid_replace (inject_Z num / inject_Z den * (inject_Z den * t))%Q with (inject_Z num * t)%Q in L by (field; lra). exact L.
Qed.
Lemma find_exp_spec fuel : forall k num den, 0 < den ->
  pow10_le (k + 1) num den = false -> pow10_le (k - Z.of_nat fuel) num den = true ->
  let r := find_exp fuel k num den in
  pow10_le r num den = true /\ pow10_le (r + 1) num den = false /\ k - Z.of_nat fuel <= r <= k.
Proof.
  induction fuel as [|f IH]; intros k num den HD U L; cbv zeta; cbn [find_exp].
  - rewrite Z.sub_0_r in L. repeat split; try assumption; lia.
  - destruct (pow10_le k num den) eqn:E; [repeat split; try assumption; lia|].
    destruct (IH (k - 1) num den HD) as (A & B & C); [replace (k - 1 + 1) with k by lia; exact E|replace (k - 1 - Z.of_nat f) with (k - Z.of_nat (S f)) by lia; exact L|].
    repeat split; try assumption; lia.
Qed.

(* a positive number between the smallest and the largest double *)
Definition in_range (num den : Z) : Prop := 0 < num /\ 0 < den /\ num < 10 ^ 309 * den /\ den <= num * 10 ^ 324.
Lemma exp10_spec num den : in_range num den ->
  (inject_Z 10 ^ exp10 num den <= ratio num den)%Q /\ (ratio num den < inject_Z 10 ^ (exp10 num den + 1))%Q /\ -324 <= exp10 num den <= 308.
Proof.
  intros (NP & DP & U & L). unfold exp10.
  destruct (find_exp_spec 632 308 num den DP) as (A & B & C).
  - unfold pow10_le. change (0 <=? 308 + 1) with true. cbv iota. change (308 + 1) with 309. apply Z.leb_gt. exact U.
  - unfold pow10_le. change (308 - Z.of_nat 632) with (-324). change (0 <=? -324) with false. cbv iota. apply Z.leb_le. change (- (-324)) with 324. exact L.
  - apply (pow10_le_spec _ _ _ DP) in A. split; [exact A|]. split; [|change (308 - Z.of_nat 632) with (-324) in C; exact C].
    apply Qnot_le_lt. intro K. apply (pow10_le_spec _ _ _ DP) in K. congruence.
Qed.

(* digits, point, digits, exponent *)
Lemma read_e_text neg p d k : 0 <= d < 10 ^ Z.of_nat (S p) -> -999 <= k <= 999 -> exists q,
  read_num (minus neg +++ low_digits 1 (d / 10 ^ Z.of_nat p) +++ "." +++ low_digits p d +++ fmt_exp k) = Some q /\
  (q == inject_Z (put_sign neg d) / inject_Z (10 ^ Z.of_nat p) * inject_Z 10 ^ k)%Q.
Proof.
  intros Hd Hk. set (P := 10 ^ Z.of_nat p).
  assert (PP : 0 < P) by (apply Z.pow_pos_nonneg; lia).
  assert (HS : 0 <= d / P < 10).
  { split; [apply Z.div_pos; lia|]. apply Z.div_lt_upper_bound; [exact PP|]. rewrite Nat2Z.inj_succ, Z.pow_succ_r in Hd by lia. fold P in Hd. lia. }
  set (rest := low_digits p d +++ fmt_exp k).
  assert (E1 : digits (low_digits 1 (d / P) +++ "." +++ rest) 0 0 = (d / P, 1%nat, String "." rest)).
  { rewrite digits_low. change (10 ^ Z.of_nat 1) with 10. rewrite (Z.mod_small (d / P)) by exact HS.
    rewrite digits_stop by reflexivity. reflexivity. }
  destruct (read_exp k Hk) as (s & ES & ER).
  assert (E2 : digits rest (d / P) 0 = (d, p, String "e" s)).
  { unfold rest. rewrite digits_low, ES. fold P. rewrite digits_stop by reflexivity. pose proof (Z.div_mod d P ltac:(lia)).
    replace (d / P * P + d mod P) with d by lia. reflexivity. }
  exists (inject_Z (put_sign neg d) / inject_Z P * inject_Z 10 ^ k)%Q. split; [|reflexivity].
  unfold read_num. rewrite (signed_minus neg _ _ 0 _ (starts_low 1 _ _ ltac:(lia)) E1). rewrite E2, ER. fold P. reflexivity.
Qed.
(* rounding to p+1 digits *)
Lemma scaled_round s num den : 0 < den -> 
  let d := if 0 <=? s then round_even (num * 10 ^ s) den else round_even num (den * 10 ^ (- s)) in
  (Qabs (inject_Z d - ratio num den * inject_Z 10 ^ s) * inject_Z 2 <= 1)%Q.
Proof.
  intros DP. cbv zeta. pose proof (inj_pos den DP) as QD.
  assert (G : forall n dd, 0 < dd -> (Qabs (inject_Z (round_even n dd) - ratio n dd) * inject_Z 2 <= 1)%Q).
  { intros n dd P. pose proof (round_close n dd P) as C. pose proof (inj_pos dd P) as QP.
    rewrite Zle_Qle in C. apply (Qmult_le_r _ _ (inject_Z dd) QP).
    setoid_replace (Qabs (inject_Z (round_even n dd) - ratio n dd) * inject_Z 2 * inject_Z dd)%Q
      with (inject_Z (Z.abs (2 * (round_even n dd * dd - n)))).
    - rewrite Qmult_1_l. exact C.
    - transitivity (Qabs (inject_Z (round_even n dd) - ratio n dd) * Qabs (inject_Z 2) * Qabs (inject_Z dd))%Q;
        [rewrite (Qabs_pos (inject_Z 2)) by discriminate; rewrite (Qabs_pos (inject_Z dd)) by lra; reflexivity|].
      rewrite <- !Qabs_Qmult. change (inject_Z (Z.abs (2 * (round_even n dd * dd - n)))) with (Qabs (inject_Z (2 * (round_even n dd * dd - n)))).
      apply Qabs_wd. rewrite inject_Z_mult. unfold Z.sub. rewrite inject_Z_plus, inject_Z_mult, inject_Z_opp. unfold ratio. field. lra. }
  destruct (Z.leb_spec 0 s) as [H|H].
  - specialize (G (num * 10 ^ s) den DP). 
    setoid_replace (ratio num den * inject_Z 10 ^ s)%Q with (ratio (num * 10 ^ s) den); [exact G|].
    unfold ratio. rewrite inject_Z_mult, Qpow_Z by exact H. field. lra.
  - assert (TP : 0 < 10 ^ (- s)) by (apply Z.pow_pos_nonneg; lia). pose proof (inj_pos _ TP) as QT.
    specialize (G num (den * 10 ^ (- s)) ltac:(lia)).
    setoid_replace (ratio num den * inject_Z 10 ^ s)%Q with (ratio num (den * 10 ^ (- s))); [exact G|].
    unfold ratio. replace s with (- (- s)) at 1 by lia. rewrite Qpower_opp, Qpow_Z, inject_Z_mult by lia. field. split; lra.
Qed.
Lemma ten0 : ~ (inject_Z 10 == 0)%Q. Proof. discriminate. Qed.
Lemma e_pos_read neg p num den : in_range num den -> (1 <= p <= 100)%nat -> exists q,
  read_num (minus neg +++ fmt_e_pos p num den) = Some q /\
  (Qabs (q - (if neg then - ratio num den else ratio num den)) * inject_Z (2 * 10 ^ Z.of_nat p) <= ratio num den)%Q.
Proof.
  intros R Hp. destruct (exp10_spec num den R) as (L & U & K). destruct R as (NP & DP & _).
  unfold fmt_e_pos. set (k := exp10 num den) in *. set (X := ratio num den) in *.
  pose proof (scaled_round (Z.of_nat p - k) num den DP) as SR. cbv zeta in SR.
  set (d := if 0 <=? Z.of_nat p - k then _ else _) in *. fold X in SR.
  set (P := 10 ^ Z.of_nat p). assert (PP : 0 < P) by (apply Z.pow_pos_nonneg; lia). pose proof (inj_pos P PP) as QP.
  set (Tk := (inject_Z 10 ^ k)%Q) in *. assert (TP : (0 < Tk)%Q) by (apply Qpow_pos; lia).
  rewrite (Qpower_plus _ _ _ ten0) in U. fold Tk in U. change (inject_Z 10 ^ 1)%Q with (inject_Z 10) in U.
  assert (ES : (inject_Z 10 ^ (Z.of_nat p - k) == inject_Z P / Tk)%Q).
  { unfold Z.sub. rewrite (Qpower_plus _ _ _ ten0), Qpower_opp, Qpow_Z by lia. fold P Tk. unfold Qdiv. reflexivity. }
  rewrite ES in SR.
  set (Y := (X * (inject_Z P / Tk))%Q) in *.
  assert (HX : (X == Y * Tk / inject_Z P)%Q) by (unfold Y; field; split; lra).
  assert (YL : (inject_Z P <= Y)%Q).
  { unfold Y. apply (Qmult_le_r _ _ Tk TP). setoid_replace (X * (inject_Z P / Tk) * Tk)%Q with (X * inject_Z P)%Q by (field; lra).
    rewrite (Qmult_comm (inject_Z P)). apply Qmult_le_compat_r; [exact L|lra]. }
  assert (YU : (Y < inject_Z (10 * P))%Q).
  { unfold Y. apply (Qmult_lt_r _ _ Tk TP). setoid_replace (X * (inject_Z P / Tk) * Tk)%Q with (X * inject_Z P)%Q by (field; lra).
    rewrite inject_Z_mult. setoid_replace (inject_Z 10 * inject_Z P * Tk)%Q with (Tk * inject_Z 10 * inject_Z P)%Q by ring.
    apply Qmult_lt_compat_r; [exact QP|exact U]. }
  assert (AB : (- (1) <= (inject_Z d - Y) * inject_Z 2 /\ (inject_Z d - Y) * inject_Z 2 <= 1)%Q).
  { change (inject_Z 2) with 2%Q in *. assert (Q0 : (Qabs (inject_Z d - Y) <= 1 # 2)%Q) by lra.
    apply Qabs_Qle_condition in Q0. lra. }
  change (inject_Z 2) with 2%Q in AB.
  assert (D0 : P <= d).
  { assert (HL : (inject_Z (P - 1) < inject_Z d)%Q) by (unfold Z.sub; rewrite inject_Z_plus; change (inject_Z (- (1))) with (- (1))%Q; lra).
    rewrite <- Zlt_Qlt in HL. lia. }
  assert (D1 : d <= 10 * P).
  { assert (HL : (inject_Z d < inject_Z (10 * P + 1))%Q) by (rewrite inject_Z_plus; change (inject_Z 1) with 1%Q; lra).
    rewrite <- Zlt_Qlt in HL. lia. }
  (* the final digits and exponent denote the same number *)
  assert (FIN : exists d' k', (if d =? 10 ^ (Z.of_nat p + 1) then (P, k + 1) else (d, k)) = (d', k') /\
      0 <= d' < 10 ^ Z.of_nat (S p) /\ -999 <= k' <= 999 /\ (inject_Z d' * inject_Z 10 ^ k' == inject_Z d * Tk)%Q).
  { assert (P10 : 10 ^ (Z.of_nat p + 1) = 10 * P) by (rewrite Z.add_1_r, Z.pow_succ_r by lia; reflexivity).
    rewrite Nat2Z.inj_succ, <- Z.add_1_r, P10. destruct (Z.eqb_spec d (10 * P)) as [E|E].
    - eexists _, _. split; [reflexivity|]. split; [lia|]. split; [lia|]. rewrite E, (Qpower_plus _ _ _ ten0), inject_Z_mult. fold Tk.
      change (inject_Z 10 ^ 1)%Q with (inject_Z 10). ring.
    - eexists _, _. split; [reflexivity|]. split; [lia|]. split; [lia|]. reflexivity. }
  destruct FIN as (d' & k' & E & Hd & Hk & EQ). fold P. rewrite E.
  destruct (read_e_text neg p d' k' Hd Hk) as (q & RQ & QE). fold P in RQ, QE. exists q. split; [exact RQ|].
  assert (QE' : (q == (if neg then - (1) else 1) * (inject_Z d * Tk / inject_Z P))%Q).
  { rewrite QE. transitivity ((if neg then - (1) else 1) * (inject_Z d' * inject_Z 10 ^ k' / inject_Z P))%Q; [|rewrite EQ; reflexivity].
    destruct neg; cbn [put_sign]; rewrite ?inject_Z_opp; field; lra. }
  setoid_replace (Qabs (q - (if neg then - X else X)) * inject_Z (2 * P))%Q with (Qabs (inject_Z d - Y) * inject_Z 2 * Tk)%Q.
  - apply Qle_trans with (1 * Tk)%Q; [apply Qmult_le_compat_r; [exact SR|lra]|]. lra.
  - rewrite inject_Z_mult. change (inject_Z 2) with 2%Q. 
    setoid_replace (q - (if neg then - X else X))%Q with ((if neg then - (1) else 1) * (inject_Z d - Y) * (Tk / inject_Z P))%Q.
    2:{ destruct neg; rewrite QE', HX; field; lra. }
    rewrite !Qabs_Qmult. rewrite (Qabs_pos (Tk / inject_Z P)) by (apply Qlt_le_weak; apply Qlt_shift_div_l; [exact QP|lra]).
    setoid_replace (Qabs (if neg then - (1) else 1))%Q with 1%Q by (destruct neg; reflexivity).
    field. lra.
Qed.

(* doubles are in range *)
Lemma digits2_bound m : Z.pos m < 2 ^ Z.pos (digits2_pos m).
Proof.
  induction m as [m IH|m IH|]; cbn [digits2_pos]; [..|reflexivity];
    rewrite Pos2Z.inj_succ, Z.pow_succ_r by lia; lia.
Qed.
Lemma double_range s m e : double (S754_finite s m e) -> in_range (frac_num m e) (frac_den e).
Proof.
  unfold double, valid_binary, bounded, canonical_mantissa. intro H. apply andb_prop in H. destruct H as [H1 H2].
  apply Z.leb_le in H2. apply Zeq_bool_eq in H1. unfold fexp, emin in H1. pose proof (digits2_bound m) as HB.
  assert (e <= 971) by lia. assert (-1074 <= e) by lia. assert (Z.pos (digits2_pos m) <= 53) by lia.
  assert (MB : Z.pos m < 2 ^ 53) by (eapply Z.lt_le_trans; [exact HB|apply Z.pow_le_mono_r; lia]).
  assert (A : 1 <= 2 ^ Z.max e 0 <= 2 ^ 971) by (split; [apply (Z.pow_le_mono_r 2 0); lia|apply Z.pow_le_mono_r; lia]).
  assert (B : 1 <= 2 ^ Z.max (- e) 0 <= 2 ^ 1074) by (split; [apply (Z.pow_le_mono_r 2 0); lia|apply Z.pow_le_mono_r; lia]).
  unfold in_range, frac_num, frac_den.
  assert (C : 2 ^ 53 * 2 ^ 971 < 10 ^ 309) by reflexivity.
  assert (D : 2 ^ 1074 <= 10 ^ 324) by (apply Z.leb_le; reflexivity).
  set (a := 2 ^ Z.max e 0) in *. set (b := 2 ^ Z.max (- e) 0) in *. set (c := 2 ^ 971) in *. set (f := 10 ^ 309) in *. set (g := 10 ^ 324) in *.
  set (h := 2 ^ 1074) in *. set (i := 2 ^ 53) in *. clearbody a b c f g h i.
  set (n := Z.pos m) in *. assert (N1 : 1 <= n) by (unfold n; lia). clearbody n.
  assert (G0 : 0 <= g) by lia. assert (NA : 1 <= n * a) by nia.
  split; [nia|]. split; [lia|]. split.
  - assert (n * a <= i * c) by (apply Z.mul_le_mono_nonneg; lia). assert (0 < f) by nia. nia.
  - assert (1 * g <= n * a * g) by (apply Z.mul_le_mono_nonneg_r; lia). lia.
Qed.
Lemma dval_ratio s m e : (dval (S754_finite s m e) == if s then - ratio (frac_num m e) (frac_den e) else ratio (frac_num m e) (frac_den e))%Q.
Proof.
  cbn [dval]. unfold ratio, frac_num, frac_den.
  assert (K : (inject_Z 2 ^ e == inject_Z (2 ^ Z.max e 0) / inject_Z (2 ^ Z.max (- e) 0))%Q).
  { destruct (Z_le_gt_dec 0 e) as [H|H].
    - rewrite Z.max_l, Z.max_r, Qpow_Z by lia. change (2 ^ 0) with 1. change (inject_Z 1) with 1%Q. field.
    - rewrite Z.max_r, Z.max_l by lia. replace e with (- - e) at 1 by lia. rewrite Qpower_opp, Qpow_Z by lia.
      change (2 ^ 0) with 1. change (inject_Z 1) with 1%Q. unfold Qdiv. rewrite Qmult_1_l. reflexivity. }
  rewrite K, inject_Z_mult. pose proof (inj_pos (2 ^ Z.max (- e) 0) ltac:(apply Z.pow_pos_nonneg; lia)).
  destruct s; cbn [put_sign]; rewrite ?inject_Z_opp; field; lra.
Qed.
Lemma ratio_pos num den : 0 < num -> 0 < den -> (0 < ratio num den)%Q.
Proof. intros. unfold ratio. apply Qlt_shift_div_l; [apply inj_pos; assumption|]. rewrite Qmult_0_l. apply inj_pos. assumption. Qed.
Lemma abs_signed (s : bool) (q : Q) : (0 < q)%Q -> (Qabs (if s then - q else q) == q)%Q.
Proof. intro. destruct s; [rewrite Qabs_opp|]; apply Qabs_pos; lra. Qed.
Lemma low_zero k n acc rest : digits (low_digits k 0 +++ rest) acc n = digits rest (acc * 10 ^ Z.of_nat k) (n + k).
Proof. rewrite digits_low. rewrite Z.mod_0_l by (apply Z.pow_nonzero; lia). rewrite Z.add_0_r. reflexivity. Qed.
Lemma app_nil_s s : s +++ "" = s.
Proof. induction s as [|c s IH]; [reflexivity|cbn; rewrite IH; reflexivity]. Qed.

Lemma starts_0 s : starts (String "0" s).
Proof. intro H. vm_compute in H. discriminate. Qed.
(* %.pe shows its argument *)
Theorem fmt_e_shows p x : (1 <= p <= 100)%nat -> double x -> shows p (fmt_e p x) x.
Proof.
  intros Hp V. destruct x as [s|s| |s m e]; cbn [shows fmt_e].
  - exists (inject_Z (put_sign s 0) / inject_Z (10 ^ Z.of_nat p) * inject_Z 10 ^ 0)%Q. split.
    + assert (E1 : digits ("0." +++ low_digits p 0 +++ "e+00") 0 0 = (0, 1%nat, String "." (low_digits p 0 +++ "e+00"))) by reflexivity.
      change ("0." +++ ?r) with (String "0" (String "." r)) in *.
      unfold read_num. rewrite (signed_minus s _ _ 0 _ (starts_0 _) E1). rewrite low_zero.
      rewrite digits_stop by reflexivity. cbn [Z.mul Nat.add]. reflexivity.
    + assert (Z0 : put_sign s 0 = 0) by (destruct s; reflexivity). rewrite Z0. cbn [dval].
      setoid_replace (inject_Z 0 / inject_Z (10 ^ Z.of_nat p) * inject_Z 10 ^ 0 - 0)%Q with 0%Q.
      * cbn [Qabs Z.abs]. rewrite Qmult_0_l. apply Qle_refl.
      * pose proof (inj_pos (10 ^ Z.of_nat p) ltac:(apply Z.pow_pos_nonneg; lia)). change (inject_Z 0) with 0%Q. change (inject_Z 10 ^ 0)%Q with 1%Q. field. lra.
  - destruct s; reflexivity.
  - reflexivity.
  - pose proof (double_range s m e V) as R. destruct (e_pos_read s p _ _ R Hp) as (q & RQ & B). exists q. split; [exact RQ|].
    rewrite dval_ratio. rewrite abs_signed; [exact B|]. destruct R as (R1 & R2 & _). apply ratio_pos; assumption.
Qed.
(* %.pf shows its argument *)
Theorem fmt_f_shows p x : (1 <= p)%nat -> shows_fixed p (fmt_f p x) x.
Proof.
  intros Hp. set (P := 10 ^ Z.of_nat p). assert (PP : 0 < P) by (apply Z.pow_pos_nonneg; lia). pose proof (inj_pos P PP) as QP.
  destruct x as [s|s| |s m e]; cbn [shows_fixed fmt_f].
  - exists (inject_Z (put_sign s 0) / inject_Z P)%Q. split.
    + assert (E1 : digits ("0." +++ low_digits p 0) 0 0 = (0, 1%nat, String "." (low_digits p 0))) by reflexivity.
      change ("0." +++ ?r) with (String "0" (String "." r)) in *.
      unfold read_num. rewrite (signed_minus s _ _ 0 _ (starts_0 _) E1).
      rewrite <- (app_nil_s (low_digits p 0)), low_zero. cbn [digits Z.mul Nat.add]. reflexivity.
    + assert (Z0 : put_sign s 0 = 0) by (destruct s; reflexivity). rewrite Z0. cbn [dval].
      setoid_replace (inject_Z 0 / inject_Z P - 0)%Q with 0%Q by (change (inject_Z 0) with 0%Q; field; lra).
      cbn [Qabs Z.abs]. rewrite Qmult_0_l. discriminate.
  - destruct s; reflexivity.
  - reflexivity.
  - fold P. assert (DP : 0 < frac_den e) by (apply Z.pow_pos_nonneg; lia).
    assert (NP : 0 < frac_num m e) by (unfold frac_num; apply Z.mul_pos_pos; [lia|apply Z.pow_pos_nonneg; lia]).
    set (num := frac_num m e) in *. set (den := frac_den e) in *.
    pose proof (scaled_round (Z.of_nat p) num den DP) as SR. cbv zeta in SR.
    destruct (Z.leb_spec 0 (Z.of_nat p)); [|lia]. fold P in SR. set (d := round_even (num * P) den) in *.
    assert (D0 : 0 <= d) by (apply round_pos; [apply Z.mul_nonneg_nonneg; lia|exact DP]).
    rewrite Qpow_Z in SR by lia. fold P in SR.
    exists (inject_Z (put_sign s d) / inject_Z P)%Q. split.
    + destruct (digits_nat (d / P) ("." +++ low_digits p d) 0 0 ltac:(apply Z.div_pos; lia)) as (k & K & E).
      destruct k as [|k]; [lia|]. rewrite (digits_stop ("." +++ low_digits p d)) in E by reflexivity. cbn [Z.mul Nat.add] in E.
      unfold read_num. rewrite (signed_minus s _ _ k _ (starts_nat (d / P) _ (Z.div_pos d P D0 PP)) E).
      cbn [String.append]. rewrite <- (app_nil_s (low_digits p d)), digits_low. cbn [digits Nat.add]. fold P.
      rewrite Z.add_0_l, (Z.mul_comm (d / P) P), <- (Z.div_mod d P) by (intro HP0; rewrite HP0 in PP; discriminate). reflexivity.
    + rewrite dval_ratio. fold num den. set (X := ratio num den) in *.
      setoid_replace (Qabs (inject_Z (put_sign s d) / inject_Z P - (if s then - X else X)) * inject_Z (2 * P))%Q
        with (Qabs (inject_Z d - X * inject_Z P) * inject_Z 2)%Q; [exact SR|].
      setoid_replace (inject_Z (put_sign s d) / inject_Z P - (if s then - X else X))%Q with ((if s then - (1) else 1) * (inject_Z d - X * inject_Z P) * / inject_Z P)%Q
        by (destruct s; cbn [put_sign]; rewrite ?inject_Z_opp; field; lra).
      rewrite !Qabs_Qmult. rewrite (Qabs_pos (/ inject_Z P)) by (apply Qlt_le_weak, Qinv_lt_0_compat; exact QP).
      setoid_replace (Qabs (if s then - (1) else 1))%Q with 1%Q by (destruct s; reflexivity).
      rewrite inject_Z_mult. field. lra.
Qed.

(* ---------- words ---------- *)
Fixpoint solid (s : string) : bool := match s with EmptyString => true | String c s => negb (is_sep c) && solid s end.
Definition word (s : string) : Prop := solid s = true /\ s <> "".
Lemma solid_app a b : solid (a +++ b) = (solid a && solid b)%bool.
Proof. induction a as [|c a IH]; [reflexivity|]. cbn [String.append solid]. rewrite IH. apply andb_assoc. Qed.
Lemma digit_solid z : is_sep (digit z) = false.
Proof.
  destruct (is_sep (digit z)) eqn:E; [|reflexivity]. exfalso. pose proof (digit_digit z) as D.
  unfold is_sep in E. apply orb_prop in E. destruct E as [E|E]; [apply orb_prop in E; destruct E as [E|E]|];
    apply Ascii.eqb_eq in E; rewrite E in D; discriminate D.
Qed.
Lemma solid_low k : forall z, solid (low_digits k z) = true.
Proof. induction k as [|k IH]; intro z; [reflexivity|]. cbn [low_digits]. rewrite solid_app, IH. cbn [solid]. rewrite digit_solid. reflexivity. Qed.
Lemma solid_all f : forall z, solid (all_digits f z) = true.
Proof.
  induction f as [|f IH]; intro z; [reflexivity|]. cbn [all_digits]. destruct (z <? 10); [|rewrite solid_app, IH]; cbn [solid]; rewrite digit_solid; reflexivity.
Qed.
Lemma solid_minus b : solid (minus b) = true. Proof. destruct b; reflexivity. Qed.
Lemma nonempty_app a b : b <> "" -> a +++ b <> "".
Proof. destruct a; [trivial|discriminate]. Qed.
Lemma word_d z : word (fmt_d z).
Proof.
  split; [unfold fmt_d, fmt_nat; rewrite solid_app, solid_minus, solid_all; reflexivity|].
  intro E. pose proof (read_fmt_d z) as R. rewrite E in R. discriminate R.
Qed.
Lemma solid_exp k : solid (fmt_exp k) = true.
Proof. unfold fmt_exp. rewrite solid_app. destruct (k <? 0), (Z.abs k <? 100); rewrite solid_low; reflexivity. Qed.
Lemma word_e p x : word (fmt_e p x).
Proof.
  destruct x as [s|s| |s m e]; cbn [fmt_e].
  - split; [rewrite !solid_app, solid_minus, solid_low; reflexivity|apply nonempty_app; discriminate].
  - split; [rewrite solid_app, solid_minus; reflexivity|apply nonempty_app; discriminate].
  - split; [reflexivity|discriminate].
  - unfold fmt_e_pos. destruct (if _ =? _ then _ else _) as [d k]. split.
    + rewrite !solid_app, solid_minus, !solid_low, solid_exp. reflexivity.
    + do 2 apply nonempty_app. discriminate.
Qed.
Lemma word_f p x : word (fmt_f p x).
Proof.
  destruct x as [s|s| |s m e]; cbn [fmt_f].
  - split; [rewrite !solid_app, solid_minus, solid_low; reflexivity|apply nonempty_app; discriminate].
  - split; [rewrite solid_app, solid_minus; reflexivity|apply nonempty_app; discriminate].
  - split; [reflexivity|discriminate].
  - unfold fmt_nat. split; [rewrite !solid_app, solid_minus, solid_all, !solid_low; reflexivity|]. do 2 apply nonempty_app. discriminate.
Qed.
Lemma words_solid s : forall w rest, solid s = true -> words_from w (s +++ rest) = words_from (w +++ s) rest.
Proof.
  induction s as [|c s IH]; intros w rest H; [cbn; rewrite app_nil_s; reflexivity|].
  cbn [solid] in H. apply andb_prop in H. destruct H as [H1 H2]. apply negb_true_iff in H1.
  cbn [String.append words_from]. rewrite H1, IH by exact H2. rewrite app_assoc_s. reflexivity.
Qed.
Lemma words_blanks n rest : words (blanks n +++ rest) = words rest.
Proof. induction n as [|n IH]; [reflexivity|]. exact IH. Qed.
Lemma words_word s c rest : word s -> is_sep c = true -> words (s +++ String c rest) = (s :: words rest)%list.
Proof.
  intros [H1 H2] HC. unfold words. rewrite words_solid by exact H1. cbn [String.append words_from]. rewrite HC. destruct s; [congruence|reflexivity].
Qed.
Lemma words_field n s c rest : word s -> is_sep c = true -> words (field n s +++ String c rest) = (s :: words rest)%list.
Proof. intros. unfold field. rewrite app_assoc_s, words_blanks. apply words_word; assumption. Qed.
Lemma words_sep c rest : is_sep c = true -> words (String c rest) = words rest.
Proof. intro H. unfold words. cbn [words_from]. rewrite H. reflexivity. Qed.
Lemma words_end a rest : words ((a +++ newline) +++ rest) = (words (a +++ newline) ++ words rest)%list.
Proof.
  rewrite app_assoc_s. unfold words. generalize "" at 1 2. induction a as [|c a IH]; intro w.
  - destruct w; reflexivity.
  - cbn [String.append words_from]. destruct (is_sep c); [destruct w; cbn [app]; rewrite IH; reflexivity|]. apply IH.
Qed.
Fixpoint ends_sep (s : string) : bool :=
  match s with EmptyString => false | String c "" => is_sep c | String _ s => ends_sep s end.
Lemma words_cut l rest : ends_sep l = true -> words (l +++ rest) = (words l ++ words rest)%list.
Proof.
  unfold words. generalize "" at 1 2. induction l as [|c l IH]; intros w H; [discriminate|].
  cbn [String.append words_from]. destruct l as [|c' l].
  - cbn [ends_sep] in H. rewrite H. cbn [String.append words_from]. destruct w; reflexivity.
  - specialize (fun w => IH w H). destruct (is_sep c); [destruct w; cbn [app]; rewrite IH; reflexivity|]. apply IH.
Qed.
Lemma words_col n s rest : word s -> words (field n s +++ sp2 +++ rest) = (s :: words rest)%list.
Proof. intro H. change (sp2 +++ rest) with (String " " (String " " rest)). rewrite words_field by (exact H || reflexivity). reflexivity. Qed.
Lemma words_last n s : word s -> words (field n s +++ newline) = [s]%list.
Proof. intro H. unfold newline. rewrite words_field by (exact H || reflexivity). reflexivity. Qed.
Lemma words_then s l rest : word s -> match l with String c _ => is_sep c = true | _ => False end -> words (s +++ l +++ rest) = (s :: words (l +++ rest))%list.
Proof.
  intros H HC. destruct l as [|c l]; [contradiction|]. cbn [String.append]. rewrite words_word by assumption. rewrite words_sep by exact HC. reflexivity.
Qed.
Lemma words_fthen n s l rest : word s -> match l with String c _ => is_sep c = true | _ => False end -> words (field n s +++ l +++ rest) = (s :: words (l +++ rest))%list.
Proof. intros H HC. unfold field. rewrite app_assoc_s, words_blanks. apply words_then; assumption. Qed.
Lemma words_stop s : word s -> words (s +++ newline) = [s]%list.
Proof. intro H. unfold newline. rewrite words_word by (exact H || reflexivity). reflexivity. Qed.
Lemma concat_cons s l : String.concat "" (s :: l)%list = s +++ String.concat "" l.
Proof. destruct l; [cbn; rewrite app_nil_s; reflexivity|reflexivity]. Qed.
Lemma concat_app l1 l2 : String.concat "" (l1 ++ l2)%list = String.concat "" l1 +++ String.concat "" l2.
Proof. induction l1 as [|s l IH]; [reflexivity|]. cbn [app]. rewrite !concat_cons, IH, app_assoc_s. reflexivity. Qed.
Lemma Forall2_map_txt l ws is : Forall2 says ws is -> Forall2 says (l ++ ws)%list (map Txt l ++ is)%list.
Proof. intro H. induction l as [|t l IH]; [exact H|]. constructor; [reflexivity|exact IH]. Qed.

Ltac wd := first [apply word_d | apply word_e | apply word_f].
Ltac wstep :=
  first [ rewrite words_col by wd | rewrite words_last by wd | rewrite words_stop by wd
        | rewrite words_then by (wd || reflexivity) | rewrite words_fthen by (wd || reflexivity) ].
(* The words of an event's text say what the event says. *)
Theorem event_read ev : doubles ev -> Forall2 says (words (String.concat "" (raw_lines ev))) (message ev).
Proof.
  assert (SD : forall z, says (fmt_d z) (Int z)) by (intro; apply read_fmt_d).
  assert (S4 : forall x, double x -> says (fmt_e 4 x) (Num 4 x)) by (intros; apply fmt_e_shows; [lia|assumption]).
  assert (S6 : forall x, double x -> says (fmt_e 6 x) (Num 6 x)) by (intros; apply fmt_e_shows; [lia|assumption]).
  assert (SF : forall x, says (fmt_f 6 x) (Fix 6 x)) by (intros; apply fmt_f_shows; lia).
  destruct ev as [|p n rz rl rv ri tol|p n r0|i t rz rl rv|ri tol|e ms p pm n nm rz rl rv tol]; cbn [doubles raw_lines]; intro H.
  - rewrite concat_cons. cbn [message]. change (words _) with ["prox"; "iter"; "newton"; "iters"; "|rz|"; "|rl|"; "|rv|"; "Inner"; "res"; "Inner"; "tol"]%list.
    repeat constructor.
  - rewrite concat_cons. cbn [String.concat]. rewrite app_nil_s. repeat wstep. cbn [message].
    destruct H as (H1 & H2 & H3 & H4 & H5). repeat constructor; auto.
  - rewrite !concat_cons. cbn [String.concat]. rewrite app_nil_s. cbn [message].
    rewrite !app_assoc_s.
    rewrite (words_cut "Begin Prox Iter: ") by reflexivity. wstep. rewrite (words_cut ", Total Newton Iters: ") by reflexivity. wstep.
    rewrite (words_cut ", Residual: ") by reflexivity. wstep. rewrite (words_cut newline) by reflexivity.
    change (words (field 10 "Iter" +++ _)) with ["Iter"; "Step"; "Size"; "|rz|"; "|rl|"; "|rv|"]%list.
    cbn [words words_from is_sep Ascii.eqb Bool.eqb orb andb String.append app newline map]. repeat constructor; auto.
  - rewrite concat_cons. cbn [String.concat]. rewrite app_nil_s. repeat wstep. cbn [message].
    destruct H as (H1 & H2 & H3 & H4). repeat constructor; auto.
  - rewrite concat_cons. cbn [String.concat]. rewrite app_nil_s.
    rewrite (words_cut "Exiting inner loop. Inner residual: ") by reflexivity. wstep. rewrite (words_cut ", Inner tolerance: ") by reflexivity. wstep.
    destruct H as (H1 & H2). cbn [message]. cbn [words words_from is_sep Ascii.eqb Bool.eqb orb andb String.append app newline map]. repeat constructor; auto.
  - rewrite !concat_cons. cbn [String.concat message]. rewrite ?app_nil_s, !app_assoc_s.
    destruct H as (H1 & H2 & H3 & H4).
    assert (W1 : forall rest, words (newline +++ "Optimization completed!  Exit code:" +++ flag_text e +++ newline +++ rest) =
       (["Optimization"; "completed!"; "Exit"; "code:"] ++ exit_words e ++ words rest)%list).
    { intro rest. destruct e; reflexivity. }
    rewrite W1. apply Forall2_map_txt, Forall2_map_txt.
    rewrite (words_cut "Time elapsed: ") by reflexivity. apply (Forall2_map_txt ["Time"; "elapsed:"]). wstep. constructor; [apply SF|].
    assert (W2 : forall rest, words (" ms (-1.0 indicates timing disabled)" +++ newline +++ rest) =
       (["ms"; "(-1.0"; "indicates"; "timing"; "disabled)"] ++ words rest)%list) by reflexivity.
    rewrite W2. apply (Forall2_map_txt ["ms"; "(-1.0"; "indicates"; "timing"; "disabled)"]).
    rewrite (words_cut "Proximal iterations: ") by reflexivity. apply (Forall2_map_txt ["Proximal"; "iterations:"]). wstep. constructor; [apply SD|].
    rewrite (words_cut " out of ") by reflexivity. apply (Forall2_map_txt ["out"; "of"]). wstep. constructor; [apply SD|].
    rewrite (words_cut newline) by reflexivity. change (words newline) with (@nil string). cbn [app].
    rewrite (words_cut "Newton iterations: ") by reflexivity. apply (Forall2_map_txt ["Newton"; "iterations:"]). wstep. constructor; [apply SD|].
    rewrite (words_cut " out of ") by reflexivity. apply (Forall2_map_txt ["out"; "of"]). wstep. constructor; [apply SD|].
    rewrite (words_cut newline) by reflexivity. change (words newline) with (@nil string). cbn [app].
    assert (W3 : forall rest, words (field 10 "|rz|" +++ sp2 +++ field 10 "|rl|" +++ sp2 +++ field 10 "|rv|" +++ sp2 +++ field 10 "Tolerance" +++ newline +++ rest) =
       (["|rz|"; "|rl|"; "|rv|"; "Tolerance"] ++ words rest)%list) by reflexivity.
    rewrite W3. apply (Forall2_map_txt ["|rz|"; "|rl|"; "|rv|"; "Tolerance"]). repeat wstep. repeat constructor; auto.
Qed.
Lemma ends_app a b : ends_sep b = true -> ends_sep (a +++ b) = true.
Proof.
  intro H. induction a as [|c a IH]; [exact H|]. cbn [String.append]. destruct a as [|c' a]; cbn [String.append] in *.
  - destruct b; [discriminate|exact H].
  - exact IH.
Qed.
Lemma text_ends ev : ends_sep (String.concat "" (raw_lines ev)) = true.
Proof.
  destruct ev; cbn [raw_lines]; rewrite !concat_cons; cbn [String.concat]; rewrite ?app_nil_s; repeat (reflexivity || apply ends_app).
Qed.
(* The words of a sequence of events. *)
Lemma events_read l : Forall doubles l -> Forall2 says (words (String.concat "" (flat_map raw_lines l))) (flat_map message l).
Proof.
  induction 1 as [|ev l H F IH]; [constructor|]. cbn [flat_map]. rewrite concat_app, words_cut by apply text_ends.
  apply Forall2_app; [apply event_read; exact H|exact IH].
Qed.

(* ---------------------------------------------------------------- C65 *)
Section Call.
  Context (O : Ops F64) (LA : LinAlg F64).
  Hypothesis zero_eq : o_eqb O (o_zero O) (o_zero O) = true.
  Context {D : Type} {DI : DataI F64 D} {d : D} {nz nl nv : nat}
          {o : params F64} {x : var F64} {el : F64} {r : solve_result F64}.
  Hypothesis call : solve_call O LA D DI d nz nl nv o x el r.
  Hypothesis prox_int : in_int (p_max_prox o) = true.
  Hypothesis newton_int : in_int (p_max_newton o) = true.
  Hypothesis timing : sane_time (o_mul O (o_dec O 1000 0) el).
  Hypothesis numbers : Forall doubles (sr_log r).
  (* Word by word, the text a call prints says what its events say. *)
  Theorem C65_text : Forall2 says (words (out_text (sr_log r))) (flat_map message (sr_log r)).
  Proof. rewrite (C60_text_complete O LA zero_eq call prox_int newton_int timing). apply events_read. exact numbers. Qed.
  (* The summary: the last words of the text are the exit flag, the elapsed time, the returned iteration counts with
     their limits and the three components of the returned residual; at display level OFF the text is empty. *)
  Theorem C65_summary : forall out, sr_out r = Ok out ->
    match p_display o with
    | OFF => out_text (sr_log r) = ""
    | _ => exists before rz rl rv,
        so_residual out = o_sqrt O (o_add O (o_add O (o_mul O rz rz) (o_mul O rl rl)) (o_mul O rv rv)) /\
        Forall2 says (words (out_text (sr_log r))) (before ++
          map Txt ["Optimization"; "completed!"; "Exit"; "code:"] ++ map Txt (exit_words (so_eflag out)) ++
          [Txt "Time"; Txt "elapsed:"; Fix 6 (o_mul O (o_dec O 1000 0) el);
           Txt "ms"; Txt "(-1.0"; Txt "indicates"; Txt "timing"; Txt "disabled)";
           Txt "Proximal"; Txt "iterations:"; Int (so_prox out); Txt "out"; Txt "of"; Int (p_max_prox o);
           Txt "Newton"; Txt "iterations:"; Int (so_newton out); Txt "out"; Txt "of"; Int (p_max_newton o);
           Txt "|rz|"; Txt "|rl|"; Txt "|rv|"; Txt "Tolerance";
           Num 4 rz; Num 4 rl; Num 4 rv; Num 4 (tolerance O DI d o)])%list
    end.
  Proof.
    intros out HO. pose proof C65_text as T0.
    destruct (C16_printed_lines O LA zero_eq call) as [(E & K)|(ou & inn & tol0 & n & last & lines & tail & _ & _ & E & SH & CL & _)].
    { exfalso. rewrite HO in K. destruct K as [_ K]. discriminate K. }
    rewrite HO in CL. cbn [closing] in CL. destruct CL as (_ & rk & ri & NR & _ & TL).
    destruct (p_display o) eqn:ED; cbn [shows_summary] in TL.
    { rewrite (C16_off_silent O LA zero_eq call ED). reflexivity. }
    all: set (fin := EvFinal _ _ _ _ _ _ _ _ _ _) in TL;
      assert (L : exists pre, sr_log r = (pre ++ [fin])%list) by (rewrite E, TL; rewrite !app_assoc; eexists; reflexivity);
      destruct L as [pre L]; exists (flat_map message pre), (r_zn rk), (r_ln rk), (r_vn rk);
      (split; [rewrite <- NR; reflexivity|]);
      pose proof C65_text as T1; rewrite L in T1 at 2; rewrite flat_map_app in T1; cbn [flat_map] in T1; rewrite app_nil_r in T1;
      exact T1.
  Qed.
End Call.
Print Assumptions C65_text.
Print Assumptions C65_summary.

(* non-vacuity: the call of C60_witness prints doubles only, and reading its text gives back what it returned *)
Definition double_ok (x : F64) : bool := valid_binary 53 1024 x.
Definition doubles_ok (ev : event F64) : bool :=
  match ev with
  | EvIterHeader => true
  | EvIterLine _ _ rz rl rv ri tol => double_ok rz && double_ok rl && double_ok rv && double_ok ri && double_ok tol
  | EvDetHeader _ _ r => double_ok r
  | EvDetLine _ t rz rl rv => double_ok t && double_ok rz && double_ok rl && double_ok rv
  | EvDetFooter ri tol => double_ok ri && double_ok tol
  | EvFinal _ _ _ _ _ _ rz rl rv tol => double_ok rz && double_ok rl && double_ok rv && double_ok tol
  end%bool.
Lemma doubles_ok_spec l : forallb doubles_ok l = true -> Forall doubles l.
Proof.
  induction l as [|ev l IH]; intro H; [constructor|]. cbn [forallb] in H. apply andb_prop in H. destruct H as [H1 H2].
  constructor; [|apply IH; exact H2]. destruct ev; cbn [doubles_ok doubles] in *; unfold double_ok, double in *;
    repeat (apply andb_prop in H1; destruct H1 as [H1 ?]); repeat split; assumption.
Qed.
Example C65_witness : exists d o' r,
  solve_call Fops LAF (dense_data F64) (denseDI Fops) d 2 0 2 o' (fx_ [0;0] [] [0;0] []) (Fdec 12 (-5)) r /\
  in_int (p_max_prox o') = true /\ in_int (p_max_newton o') = true /\
  sane_time (o_mul Fops (o_dec Fops 1000 0) (Fdec 12 (-5))) /\
  Forall doubles (sr_log r) /\ p_display o' = ITER_DETAILED /\ List.length (words (out_text (sr_log r))) = 118%nat.
Proof.
  assert (W : exists d o' r, solve_call Fops LAF (dense_data F64) (denseDI Fops) d 2 0 2 o' (fx_ [0;0] [] [0;0] []) (Fdec 12 (-5)) r /\
    in_int (p_max_prox o') = true /\ in_int (p_max_newton o') = true /\ sane_time (o_mul Fops (o_dec Fops 1000 0) (Fdec 12 (-5))) /\
    forallb doubles_ok (sr_log r) = true /\ p_display o' = ITER_DETAILED /\ List.length (words (out_text (sr_log r))) = 118%nat).
  { eapply (dcall_ok Fops LAF g0 2 0 2 (with_display dflt ITER_DETAILED) qp_ok Owned _ (Fdec 12 (-5))
    (fun _ o' r => in_int (p_max_prox o') = true /\ in_int (p_max_newton o') = true /\ _ /\ forallb doubles_ok (sr_log r) = true /\
       p_display o' = ITER_DETAILED /\ List.length (words (out_text (sr_log r))) = _)).
    - exact I.
    - vm_compute. repeat split. }
  destruct W as (d & o' & r & W0 & W1 & W2 & W3 & W4 & W5 & W6). exists d, o', r. repeat (split; try assumption).
  apply doubles_ok_spec. exact W4.
Qed.
(* the reader on some texts *)
Example C65_reader :
  words (" 1.0603e-11  -0.5, x" +++ newline) = ["1.0603e-11"; "-0.5"; "x"]%list /\
  read_int "-120" = Some (-120) /\ read_int "12x" = None /\ read_num "nan" = None /\
  (match read_num "-1.0603e+02" with Some q => q == -10603 # 100 | None => False end)%Q /\
  (match read_num "0.120000" with Some q => q == 12 # 100 | None => False end)%Q.
Proof. repeat split. Qed.
