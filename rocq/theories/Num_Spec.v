(** What integer operators and conversions are expected to compute. *)
From Verif Require Import Base Num_Model.
Local Open Scope Z_scope.

(** An operator that returns the exact result when it is a 32-bit integer, and otherwise fails
    with [e]. *)
Definition exact_or (e : int_error) (exact : Z) (r : res int_error Z) : Prop :=
  (in_i32 exact -> r = Ok exact) /\ (~ in_i32 exact -> r = Err e).

(** [q] is [a / b] rounded towards zero and [r] the rest, with the sign of [a]. *)
Definition truncated_division (a b q r : Z) : Prop :=
  a = b * q + r /\ Z.abs r < Z.abs b /\ (r <> 0 -> Z.sgn r = Z.sgn a).

(** The exact value of a double, as a fraction with a positive denominator; [None] for
    infinities and NaN. *)
Definition double_value (bits : N) : option (Z * Z) :=
  match f64_sf bits with
  | S754_zero _ => Some (0, 1)
  | S754_finite s m e =>
      let v := if s then Zneg m else Zpos m in
      if 0 <=? e then Some (v * 2 ^ e, 1) else Some (v, 2 ^ (- e))
  | _ => None
  end.

(** [n] is the integer closest to [num/den]; halves go away from zero. *)
Definition nearest_away (num den n : Z) : Prop :=
  2 * Z.abs (n * den - num) <= den /\
  (2 * Z.abs (n * den - num) = den -> Z.abs num < Z.abs (n * den)).

(** [n] is the largest integer not above [num/den]. *)
Definition floor_of (num den n : Z) : Prop := n * den <= num < (n + 1) * den.
