(** What the numerical functions and commands are to do. *)
From Coq Require Import String.
From Verif Require Import Base Bytecode_Model Mem_Model Num_Model Num_Spec Vm_Model Ast_Model Call_Spec Cmds_Spec Numerics_Model Lib_Spec.
Local Open Scope string_scope.
Local Open Scope list_scope.
Local Open Scope Z_scope.

(** The double [d] is the integer [n]. *)
Definition whole (d : N) (n : Z) : Prop := exists num den, double_value d = Some (num, den) /\ 0 < den /\ num = n * den.

(** Three ways to make integers of doubles: to the nearest, halves away from zero; to the largest
    one not above; and the part before the point. *)
Definition to_nearest (x : N) (n : Z) : Prop := exists num den, double_value x = Some (num, den) /\ nearest_away num den n.
Definition downwards (x : N) (n : Z) : Prop := exists num den, double_value x = Some (num, den) /\ floor_of num den n.
Definition towards_zero (x : N) (n : Z) : Prop := exists num den, double_value x = Some (num, den) /\
  Z.abs n * den <= Z.abs num < (Z.abs n + 1) * den /\ 0 <= n * num.

(** [y] is [x] without its sign, which is the highest of the 64 bits. *)
Definition absolute (x y : N) : Prop := (y < 2 ^ 63 /\ (x = y \/ x = y + 2 ^ 63))%N.

(** [y] is the integer nearest to [x], with its sign if it is zero. *)
Inductive rounds (x : N) : N -> Prop :=
| Rounds_finite n y : to_nearest x n -> whole y n -> (y < 2 ^ 64)%N -> N.testbit y 63 = N.testbit x 63 -> rounds x y
| Rounds_not_finite : double_value x = None -> rounds x (f64_bits (f64_sf x)).

(** Greater than zero, less than zero, or none of both, as NaN. *)
Inductive sign_of (x : N) : Z -> Prop :=
| Sign_finite num den : double_value x = Some (num, den) -> sign_of x (Z.sgn num)
| Sign_infinite s : f64_sf x = S754_infinity s -> sign_of x (if s then -1 else 1)
| Sign_nan : f64_sf x = S754_nan -> sign_of x 0.

(** The first of the greatest of them, and the first of the least of them; [start] is one more. *)
Definition is_nan (x : N) : Prop := f64_sf x = S754_nan.
Definition greatest (start : N) (l : list N) (y : N) : Prop := exists l1 l2, start :: l = l1 ++ y :: l2 /\
  (forall x, In x l1 -> is_nan x \/ f64_lt x y = true) /\ (forall x, In x l2 -> f64_lt y x = false).
Definition least (start : N) (l : list N) (y : N) : Prop := exists l1 l2, start :: l = l1 ++ y :: l2 /\
  (forall x, In x l1 -> is_nan x \/ f64_lt y x = true) /\ (forall x, In x l2 -> f64_lt x y = false).

Section Numerics.
Variable lm : libm.
Variable show_double : N -> ustr.

(** Integers that do not fit are errors that show them. *)
Definition cannot_cast (d : N) : res ustr (option cdatum) := Err (u "Cannot cast " ++ show_double d ++ u " to integer due to overflow").
Inductive casts (way : N -> Z -> Prop) (x : N) : res ustr (option cdatum) -> Prop :=
| Casts_fits n : way x n -> in_i32 n -> casts way x (Ok (Some (CInt n)))
| Casts_large n d : way x n -> ~ in_i32 n -> whole d n -> (d < 2 ^ 64)%N -> casts way x (cannot_cast d)
| Casts_not_finite : double_value x = None -> casts way x (cannot_cast (f64_bits (f64_sf x))).

Context {G X : Type}.
Variable rng : generator G X.
Notation W := (numbers G X).

(** Angles are in degrees after DEG and in radians after RAD. *)
Definition from_radians (w : W) (a : N) : N := if nm_degrees w then f64_mul a f64_degs_per_rad else a.
Definition in_radians (w : W) (a : N) : N := if nm_degrees w then f64_mul a f64_rads_per_deg else a.

(** Functions of one number that depend at most on the angle mode, or fail. *)
Inductive computes (w : W) : ustr -> N -> res ustr (option cdatum) -> Prop :=
| Computes_abs x y : absolute x y -> computes w (u "ABS") x (Ok (Some (CDouble y)))
| Computes_cint x r : casts to_nearest x r -> computes w (u "CINT") x r
| Computes_int x r : casts downwards x r -> computes w (u "INT") x r
| Computes_fix x r : casts towards_zero x r -> computes w (u "FIX") x r
| Computes_round x y : rounds x y -> computes w (u "ROUND") x (Ok (Some (CDouble y)))
| Computes_sgn x z : sign_of x z -> computes w (u "SGN") x (Ok (Some (CInt z)))
| Computes_sqr x : f64_lt x 0 = false -> computes w (u "SQR") x (Ok (Some (CDouble (f64_bits (SFsqrt 53 1024 (f64_sf x))))))
| Computes_sqr_not x : f64_lt x 0 = true -> computes w (u "SQR") x (Err (u "Cannot take square root of a negative number"))
| Computes_log x : f64_le x 0 = false -> computes w (u "LOG") x (Ok (Some (CDouble (m_ln lm x))))
| Computes_log_not x : f64_le x 0 = true -> computes w (u "LOG") x (Err (u "Cannot take logarithm of zero or a negative number"))
| Computes_exp x : double_value (m_exp lm x) <> None -> computes w (u "EXP") x (Ok (Some (CDouble (m_exp lm x))))
| Computes_exp_not x : double_value (m_exp lm x) = None ->
    computes w (u "EXP") x (Err (u "Cannot exponentiate " ++ show_double x ++ u " due to overflow"))
| Computes_acos x : f64_le f64_minus_one x = true -> f64_le x f64_one = true ->
    computes w (u "ACOS") x (Ok (Some (CDouble (from_radians w (m_acos lm x)))))
| Computes_acos_not x : f64_le f64_minus_one x = false \/ f64_le x f64_one = false ->
    computes w (u "ACOS") x (Err (u "Cannot take arc-cosine of a number outside of [-1, 1]"))
| Computes_asin x : f64_le f64_minus_one x = true -> f64_le x f64_one = true ->
    computes w (u "ASIN") x (Ok (Some (CDouble (from_radians w (m_asin lm x)))))
| Computes_asin_not x : f64_le f64_minus_one x = false \/ f64_le x f64_one = false ->
    computes w (u "ASIN") x (Err (u "Cannot take arc-sine of a number outside of [-1, 1]"))
| Computes_atn x : computes w (u "ATN") x (Ok (Some (CDouble (from_radians w (m_atan lm x)))))
| Computes_cos x : computes w (u "COS") x (Ok (Some (CDouble (m_cos lm (in_radians w x)))))
| Computes_sin x : computes w (u "SIN") x (Ok (Some (CDouble (m_sin lm (in_radians w x)))))
| Computes_tan x : computes w (u "TAN") x (Ok (Some (CDouble (m_tan lm (in_radians w x))))).

(** A number of the generator as a fraction. *)
Definition fraction (n : N) : res ustr (option cdatum) := Ok (Some (CDouble (f64_div (f64_of_u32 n) f64_u32_max))).
Definition with_generator (w : W) (g : G) (last : N) : W := mkNumbers (nm_degrees w) g last (nm_rest w).

Inductive numerics_does : doing W :=
| Does_compute k x r w : computes w k x r -> numerics_does k [GValue (CDouble x)] w r w
| Does_decimals x z y w : rounds (f64_mul x (m_powi lm 0x4024000000000000%N z)) y ->
    numerics_does (u "ROUND") [GValue (CDouble x); GValue (CInt z)] w (Ok (Some (CDouble (f64_div y (m_powi lm 0x4024000000000000%N z))))) w
| Does_max l y w : (length l < 256)%nat -> greatest f64_min l y ->
    numerics_does (u "MAX") (map (fun x => GValue (CDouble x)) l) w (Ok (Some (CDouble y))) w
| Does_min l y w : (length l < 256)%nat -> least f64_max l y ->
    numerics_does (u "MIN") (map (fun x => GValue (CDouble x)) l) w (Ok (Some (CDouble y))) w
| Does_pi w : numerics_does (u "PI") [] w (Ok (Some (CDouble f64_pi))) w
| Does_deg w : numerics_does (u "DEG") [] w (Ok None) (mkNumbers true (nm_gen w) (nm_last w) (nm_rest w))
| Does_rad w : numerics_does (u "RAD") [] w (Ok None) (mkNumbers false (nm_gen w) (nm_last w) (nm_rest w))
| Does_randomize z w g n : next_u32 rng (seed_from_u64 rng (Z.to_N (z mod 2 ^ 64))) = (g, n) ->
    numerics_does (u "RANDOMIZE") [GValue (CInt z)] w (Ok None) (with_generator w g n)
| Does_randomize_anew w x g0 g n : from_entropy rng (nm_rest w) = (x, g0) -> next_u32 rng g0 = (g, n) ->
    numerics_does (u "RANDOMIZE") [] w (Ok None) (mkNumbers (nm_degrees w) g n x)
| Does_rnd w g n : next_u32 rng (nm_gen w) = (g, n) -> numerics_does (u "RND") [] w (fraction n) (with_generator w g n)
| Does_rnd_next z w g n : 0 < z -> next_u32 rng (nm_gen w) = (g, n) -> numerics_does (u "RND") [GValue (CInt z)] w (fraction n) (with_generator w g n)
| Does_rnd_last w : numerics_does (u "RND") [GValue (CInt 0)] w (fraction (nm_last w)) w
| Does_rnd_seed z w g n : z < 0 -> next_u32 rng (seed_from_u64 rng (Z.to_N (z mod 2 ^ 64))) = (g, n) ->
    numerics_does (u "RND") [GValue (CInt z)] w (fraction n) (with_generator w g n).

(** Statements [x = RND()] one after the other: what they get. *)
Inductive draws : W -> list N -> W -> Prop :=
| Draws_none w : draws w [] w
| Draws_more w d w1 l w2 : numerics_does (u "RND") [] w (Ok (Some (CDouble d))) w1 -> draws w1 l w2 -> draws w (d :: l) w2.
End Numerics.
