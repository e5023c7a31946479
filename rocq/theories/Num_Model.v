(** Integer and double arithmetic as executed by the virtual machine.
    Models core/src/vm/context.rs 89-162, 717-727, 826-831, 966-986, 1029-1049 and
    std/src/numerics.rs 37-44. *)
From Coq Require Export SpecFloat.
From Verif Require Import Base Mem_Model.
Local Open Scope Z_scope.

(** The error messages of context.rs 89-162, 977-985, 1033-1048. *)
Inductive int_error :=
| EOverflow | EUnderflow | EDivZero | EModZero
| ENegShl (bits : Z) | ENegShr (bits : Z) | ENegExponent (e : Z).

(** Rust's [checked_*] functions on [i32]: the exact result if it fits. *)
Definition checked (e : int_error) (z : Z) : res int_error Z :=
  if is_i32 z then Ok z else Err e.

(** context.rs 91-93. *)
Definition checked_add_integer (l r : Z) := checked EOverflow (l + r).
(** context.rs 97-99. *)
Definition checked_and_integer (l r : Z) : res int_error Z := Ok (Z.land l r).
(** context.rs 103-105. *)
Definition checked_div_integer (l r : Z) : res int_error Z :=
  if r =? 0 then Err EDivZero else checked EUnderflow (Z.quot l r).
(** context.rs 109-111; [checked_rem] fails exactly when the quotient overflows. *)
Definition checked_mod_integer (l r : Z) : res int_error Z :=
  if r =? 0 then Err EModZero
  else if is_i32 (Z.quot l r) then Ok (Z.rem l r) else Err EUnderflow.
(** context.rs 115-117. *)
Definition checked_mul_integer (l r : Z) := checked EOverflow (l * r).
(** context.rs 121-123. *)
Definition checked_or_integer (l r : Z) : res int_error Z := Ok (Z.lor l r).
(** context.rs 127-129; Rust's [checked_pow] is specified as the exact power, if it fits. *)
Definition checked_pow_integer (l exp : Z) := checked EOverflow (l ^ exp).
(** Rust's [as i32] on an unbounded value: keep the low 32 bits. *)
Definition wrap_i32 (z : Z) : Z := (z + 2 ^ 31) mod 2 ^ 32 - 2 ^ 31.
(** context.rs 133-138; [checked_shl] drops the bits shifted out. *)
Definition checked_shl_integer (l r : Z) : res int_error Z :=
  if r <? 0 then Err (ENegShl r)
  else Ok (if r <? 32 then wrap_i32 (Z.shiftl l r) else 0).
(** context.rs 142-151. *)
Definition checked_shr_integer (l r : Z) : res int_error Z :=
  if r <? 0 then Err (ENegShr r)
  else Ok (if r <? 32 then Z.shiftr l r else if l <? 0 then -1 else 0).
(** context.rs 154-156. *)
Definition checked_sub_integer (l r : Z) := checked EUnderflow (l - r).
(** context.rs 160-162. *)
Definition checked_xor_integer (l r : Z) : res int_error Z := Ok (Z.lxor l r).
(** context.rs 660-665: [BitwiseNot]. *)
Definition not_integer (v : Z) : Z := Z.lnot v.
(** context.rs 974-986: [NegateInteger]. *)
Definition checked_neg_integer (v : Z) := checked EOverflow (- v).
(** context.rs 1029-1049: [PowerInteger]. *)
Definition power_integer (l r : Z) : res int_error Z :=
  if r <? 0 then Err (ENegExponent r) else checked_pow_integer l r.

(** * Doubles

    A double is its 64-bit pattern, as in a register.  Arithmetic is the IEEE 754 binary64
    arithmetic of Coq's [SpecFloat].  NaN payloads are not modelled: operations that produce a
    NaN produce the canonical quiet one. *)

Definition f64_sf (bits : N) : spec_float :=
  let s := N.testbit bits 63 in
  let ex := Z.of_N (N.land (N.shiftr bits 52) 2047) in
  let m := N.land bits (2 ^ 52 - 1) in
  if ex =? 2047 then (if (m =? 0)%N then S754_infinity s else S754_nan)
  else if ex =? 0 then
    match m with N0 => S754_zero s | Npos p => S754_finite s p (-1074) end
  else match (m + 2 ^ 52)%N with N0 => S754_nan | Npos p => S754_finite s p (ex - 1075) end.

Definition sign_bit (s : bool) : N := if s then (2 ^ 63)%N else 0%N.

Definition f64_bits (x : spec_float) : N :=
  match x with
  | S754_nan => 0x7ff8000000000000
  | S754_infinity s => sign_bit s + 0x7ff0000000000000
  | S754_zero s => sign_bit s
  | S754_finite s m e =>
      if (Npos m <? 2 ^ 52)%N then sign_bit s + Npos m
      else sign_bit s + (Z.to_N (e + 1075) * 2 ^ 52 + (Npos m - 2 ^ 52))
  end%N.

Definition prec := 53.
Definition emax := 1024.

Definition f64_add (a b : N) : N := f64_bits (SFadd prec emax (f64_sf a) (f64_sf b)).
Definition f64_sub (a b : N) : N := f64_bits (SFsub prec emax (f64_sf a) (f64_sf b)).
Definition f64_mul (a b : N) : N := f64_bits (SFmul prec emax (f64_sf a) (f64_sf b)).
Definition f64_div (a b : N) : N := f64_bits (SFdiv prec emax (f64_sf a) (f64_sf b)).
(** Negation flips the sign bit, also for NaN. *)
Definition f64_neg (a : N) : N := N.lxor a (2 ^ 63).
Definition f64_eq (a b : N) : bool := SFeqb (f64_sf a) (f64_sf b).
Definition f64_lt (a b : N) : bool := SFltb (f64_sf a) (f64_sf b).
Definition f64_le (a b : N) : bool := SFleb (f64_sf a) (f64_sf b).

(** Rust's [%] on doubles (C [fmod]): exact remainder with the sign of the dividend. *)
Definition sf_rem (x y : spec_float) : spec_float :=
  match x, y with
  | S754_nan, _ | _, S754_nan | S754_infinity _, _ | _, S754_zero _ => S754_nan
  | S754_zero _, _ | _, S754_infinity _ => x
  | S754_finite sx mx ex, S754_finite _ my ey =>
      let e := Z.min ex ey in
      let r := (Zpos mx * 2 ^ (ex - e)) mod (Zpos my * 2 ^ (ey - e)) in
      match r with
      | Zpos p => binary_round prec emax sx p e
      | _ => S754_zero sx
      end
  end.
Definition f64_rem (a b : N) : N := f64_bits (sf_rem (f64_sf a) (f64_sf b)).

(** A positive integer below 2^53 as a double (exact): the mantissa shifted to 53 digits. *)
Definition sf_of_pos (s : bool) (p : positive) : spec_float :=
  let d := Zpos (digits2_pos p) in
  match Zpos p * 2 ^ (53 - d) with
  | Zpos m => S754_finite s m (d - 53)
  | _ => S754_nan
  end.

(** Rust's [as f64] on an [i32]. *)
Definition sf_of_Z (z : Z) : spec_float :=
  match z with
  | Z0 => S754_zero false
  | Zpos p => sf_of_pos false p
  | Zneg p => sf_of_pos true p
  end.
Definition f64_of_i32 (z : Z) : N := f64_bits (sf_of_Z z).

(** Rust's [f64::round]: nearest integer, ties away from zero, keeping the sign of zero. *)
Definition sf_round (x : spec_float) : spec_float :=
  match x with
  | S754_finite s m e =>
      if 0 <=? e then x
      else match (Zpos m + 2 ^ (- e - 1)) / 2 ^ (- e) with
           | Zpos q => sf_of_pos s q
           | _ => S754_zero s
           end
  | _ => x
  end.

(** Rust's [f64::floor]. *)
Definition sf_floor (x : spec_float) : spec_float :=
  match x with
  | S754_finite s m e =>
      if 0 <=? e then x
      else match (cond_Zopp s (Zpos m)) / 2 ^ (- e) with
           | Zpos q => sf_of_pos false q
           | Zneg q => sf_of_pos true q
           | Z0 => S754_zero s
           end
  | _ => x
  end.

Definition sf_is_finite (x : spec_float) : bool :=
  match x with S754_finite _ _ _ | S754_zero _ => true | _ => false end.

(** Rust's [as i32] on a double: truncation, saturating, NaN to zero. *)
Definition sf_as_i32 (x : spec_float) : Z :=
  match x with
  | S754_nan | S754_zero _ => 0
  | S754_infinity s => if s then i32_min else i32_max
  | S754_finite s m e =>
      let t := if 0 <=? e then Zpos m * 2 ^ e else Zpos m / 2 ^ (- e) in
      Z.max i32_min (Z.min i32_max (cond_Zopp s t))
  end.

(** context.rs 719-720 and numerics.rs 37-44: [None] is the "Cannot cast" error. *)
Definition sf_to_integer (x : spec_float) : option Z :=
  let d := sf_round x in
  if sf_is_finite d && SFleb (sf_of_Z i32_min) d && SFleb d (sf_of_Z i32_max)
  then Some (sf_as_i32 d) else None.
Definition double_to_integer (bits : N) : option Z := sf_to_integer (f64_sf bits).

(** numerics.rs 565-569: the [INT] function floors before converting. *)
Definition int_function (bits : N) : option Z := sf_to_integer (sf_floor (f64_sf bits)).
