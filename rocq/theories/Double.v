(** IEEE binary64 for C++ [double], on top of the standard library's [SpecFloat].
    One NaN (payloads and NaN signs are not modelled), rounding to nearest even. *)
From Coq Require Import ZArith Lia Bool.
From Coq Require Export Floats.SpecFloat.
From Verif Require Import Num.
Open Scope Z_scope.

Definition prec := 53.
Definition emax := 1024.

Notation double := spec_float.

Definition d0 : double := S754_zero false.
Definition dinf : double := S754_infinity false.
Definition dminf : double := S754_infinity true.
Definition dnan : double := S754_nan.

(** x == y, x < y, x <= y *)
Definition deqb (x y : double) : bool := SFeqb x y.
Definition dltb (x y : double) : bool := SFltb x y.
Definition dleb (x y : double) : bool := SFleb x y.

Definition dadd (x y : double) : double := SFadd prec emax x y.
Definition dsub (x y : double) : double := SFsub prec emax x y.
Definition dmul (x y : double) : double := SFmul prec emax x y.
Definition ddiv (x y : double) : double := SFdiv prec emax x y.
Definition dsqrt (x : double) : double := SFsqrt prec emax x.
Definition dopp (x : double) : double := SFopp x.
Definition dabs (x : double) : double := SFabs x.

(** std::max(a, b) = (a < b) ? b : a;  std::min(a, b) = (b < a) ? b : a *)
Definition dmax (a b : double) : double := if dltb a b then b else a.
Definition dmin (a b : double) : double := if dltb b a then b else a.

(** The double holding the integer [n], for [|n| < 2^53]; [neg0] is the sign used
    when [n = 0]. *)
Definition dint_ (neg0 : bool) (n : Z) : double :=
  match n with
  | Z0 => S754_zero neg0
  | Zpos p => let d := Zpos (digits2_pos p) in
              S754_finite false (Pos.shiftl p (Z.to_N (53 - d))) (d - 53)
  | Zneg p => let d := Zpos (digits2_pos p) in
              S754_finite true (Pos.shiftl p (Z.to_N (53 - d))) (d - 53)
  end.
Definition dint (n : Z) : double := dint_ false n.

(** std::floor, std::ceil, std::round (half away from zero). *)
Definition dfloor (x : double) : double :=
  match x with
  | S754_finite s m e =>
      if 0 <=? e then x
      else dint_ s ((if s then - Zpos m else Zpos m) / 2 ^ (- e))
  | _ => x
  end.
Definition dceil (x : double) : double := dopp (dfloor (dopp x)).
Definition dround (x : double) : double :=
  match x with
  | S754_finite s m e =>
      if 0 <=? e then x
      else
        let a := (2 * Zpos m + 2 ^ (- e)) / (2 * 2 ^ (- e)) in
        dint_ s (if s then - a else a)
  | _ => x
  end.

Definition d1 : double := dint 1.
Definition dm1 : double := dint (-1).

Definition is_nan (x : double) : bool := match x with S754_nan => true | _ => false end.
Definition is_inf (x : double) : bool := match x with S754_infinity _ => true | _ => false end.
Definition is_finite (x : double) : bool :=
  match x with S754_zero _ | S754_finite _ _ _ => true | _ => false end.

(** A binary64 value: canonical mantissa and exponent in range. *)
Definition dvalid (x : double) : bool := valid_binary prec emax x.

(** Numerical value in units of 2^-1074 (finite values only). *)
Definition zval (x : double) : Z :=
  match x with
  | S754_finite s m e => (if s then - Zpos m else Zpos m) * 2 ^ (e + 1074)
  | _ => 0
  end.
(** One, in those units. *)
Definition zone : Z := 2 ^ 1074.

Definition num_double : Num :=
  mkNum double d0 d1 dm1 (fun x => deqb x d0) dadd dmul ddiv dopp.

Lemma num_double_ok : num_ok num_double.
Proof. split; [reflexivity|]. intros [s|s| |s m e]; try reflexivity; destruct s; reflexivity. Qed.
