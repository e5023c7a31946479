(** The numerical functions and commands (std/src/numerics.rs). *)
From Coq Require Import String.
From Verif Require Import Base Bytecode_Model Mem_Model Num_Model Vm_Model Ast_Model Syms_Model Strings_Model Cmds_Model Lib_Model.
Local Open Scope string_scope.
Local Open Scope list_scope.
Local Open Scope nat_scope.

(** Rust's [f64::trunc]. *)
Definition sf_trunc (x : spec_float) : spec_float :=
  match x with
  | S754_finite s m e =>
      if (0 <=? e)%Z then x
      else match (Zpos m / 2 ^ (- e))%Z with
           | Zpos q => sf_of_pos s q
           | _ => S754_zero s
           end
  | _ => x
  end.
Definition f64_round (x : N) : N := f64_bits (sf_round (f64_sf x)).
Definition f64_floor (x : N) : N := f64_bits (sf_floor (f64_sf x)).
Definition f64_trunc (x : N) : N := f64_bits (sf_trunc (f64_sf x)).
(** Rust's [f64::abs]: clears the sign, also for NaN. *)
Definition f64_abs (x : N) : N := N.land x (N.ones 63).
Definition f64_sqrt (x : N) : N := f64_bits (SFsqrt prec emax (f64_sf x)).

(** Constants by their bits: [1.0], [-1.0], [f64::MAX], [f64::MIN], [PI], [PI / 180.0],
    [180.0 / PI] and [u32::MAX as f64]. *)
Definition f64_one : N := 0x3ff0000000000000.
Definition f64_minus_one : N := 0xbff0000000000000.
Definition f64_max : N := 0x7fefffffffffffff.
Definition f64_min : N := 0xffefffffffffffff.
Definition f64_pi : N := 0x400921fb54442d18.
Definition f64_rads_per_deg : N := 0x3f91df46a2529d39.
Definition f64_degs_per_rad : N := 0x404ca5dc1a63c1f8.
Definition f64_u32_max : N := 0x41efffffffe00000.
(** [as f64] on a [u32]. *)
Definition f64_of_u32 (n : N) : N := f64_bits (sf_of_Z (Z.of_N n)).

(** The functions of libm, which are not modelled. *)
Record libm := mkLibm {
  m_acos : N -> N; m_asin : N -> N; m_atan : N -> N; m_cos : N -> N; m_exp : N -> N; m_ln : N -> N; m_sin : N -> N; m_tan : N -> N;
  m_powi : N -> Z -> N }.

(** The generator of the [rand] crate, which is not modelled: its states, the next number, the
    state for a seed, and the one that comes from the entropy of the system. *)
Record generator (G X : Type) := mkGenerator {
  next_u32 : G -> G * N; seed_from_u64 : N -> G; from_entropy : X -> X * G }.
Arguments next_u32 {G X}. Arguments seed_from_u64 {G X}. Arguments from_entropy {G X}. Arguments mkGenerator {G X}.

(** numerics.rs 47-53 and 88-91: the angle mode, the [Prng], and the rest of the world. *)
Record numbers (G X : Type) := mkNumbers { nm_degrees : bool; nm_gen : G; nm_last : N; nm_rest : X }.
Arguments nm_degrees {G X}. Arguments nm_gen {G X}. Arguments nm_last {G X}. Arguments nm_rest {G X}. Arguments mkNumbers {G X}.

Section Numerics.
Variable lm : libm.
Variable show_double : N -> ustr.
Context {G X : Type}.
Variable rng : generator G X.
Notation W := (numbers G X).

(** numerics.rs 67-75. *)
Definition get_angle (angle : N) (w : W) : N := if nm_degrees w then f64_mul angle f64_rads_per_deg else angle.
(** numerics.rs 78-83. *)
Definition to_angle (angle : N) (w : W) : N := if nm_degrees w then f64_mul angle f64_degs_per_rad else angle.

(** numerics.rs 101-106; [seed as u64] extends the sign. *)
Definition prng_seed (seed : Z) (w : W) : W :=
  let '(g, last) := next_u32 rng (seed_from_u64 rng (Z.to_N (seed mod 2 ^ 64))) in mkNumbers (nm_degrees w) g last (nm_rest w).
(** numerics.rs 95-99. *)
Definition prng_entropy (w : W) : W :=
  let '(x, g) := from_entropy rng (nm_rest w) in
  let '(g, last) := next_u32 rng g in mkNumbers (nm_degrees w) g last x.
(** numerics.rs 109-111. *)
Definition prng_last (w : W) : N := f64_div (f64_of_u32 (nm_last w)) f64_u32_max.
(** numerics.rs 114-117. *)
Definition prng_next (w : W) : W :=
  let '(g, last) := next_u32 rng (nm_gen w) in mkNumbers (nm_degrees w) g last (nm_rest w).

Section Scope.
Variable arg : nat -> N.
Variable pos : list linecol.
Notation result := (option (W * res call_failure (option cdatum))).
Definition number (d : N) (w : W) : result := Some (w, Ok (Some (CDouble d))).
Definition wrong (msg : ustr) (w : W) : result :=
  match syntax_error (A := option cdatum) pos 0 msg with Some r => Some (w, r) | None => None end.

(** numerics.rs 37-44 with 345-347, 520-522 and 567-569. *)
Definition cast (d : N) (w : W) : result :=
  match double_to_integer d with
  | Some i => Some (w, Ok (Some (CInt i)))
  | None => wrong (u "Cannot cast " ++ show_double (f64_round d) ++ u " to integer due to overflow") w
  end.

(** numerics.rs 153-157, 296-301, 341-348, 516-523 and 563-570. *)
Definition abs_exec (w : W) : result := number (f64_abs (arg 0)) w.
Definition atn_exec (w : W) : result := number (to_angle (m_atan lm (arg 0)) w) w.
Definition cint_exec (w : W) : result := cast (arg 0) w.
Definition fix_exec (w : W) : result := cast (f64_trunc (arg 0)) w.
Definition int_exec (w : W) : result := cast (f64_floor (arg 0)) w.
(** numerics.rs 196-207 and 246-257. *)
Definition in_unit (n : N) : bool := f64_le f64_minus_one n && f64_le n f64_one.
Definition acos_exec (w : W) : result :=
  if negb (in_unit (arg 0)) then wrong (u "Cannot take arc-cosine of a number outside of [-1, 1]") w
  else number (to_angle (m_acos lm (arg 0)) w) w.
Definition asin_exec (w : W) : result :=
  if negb (in_unit (arg 0)) then wrong (u "Cannot take arc-sine of a number outside of [-1, 1]") w
  else number (to_angle (m_asin lm (arg 0)) w) w.
(** numerics.rs 390-393, 1045-1048 and 1135-1138. *)
Definition cos_exec (w : W) : result := number (m_cos lm (get_angle (arg 0) w)) w.
Definition sin_exec (w : W) : result := number (m_sin lm (get_angle (arg 0) w)) w.
Definition tan_exec (w : W) : result := number (m_tan lm (get_angle (arg 0) w)) w.
(** numerics.rs 425-429 and 766-770. *)
Definition angle_exec (degrees : bool) (w : W) : result := Some (mkNumbers degrees (nm_gen w) (nm_last w) (nm_rest w), Ok None).
(** numerics.rs 465-476. *)
Definition exp_exec (w : W) : result :=
  let exp := m_exp lm (arg 0) in
  if negb (sf_is_finite (f64_sf exp)) then wrong (u "Cannot exponentiate " ++ show_double (arg 0) ++ u " due to overflow") w
  else number exp w.
(** numerics.rs 603-614 and 1081-1092. *)
Definition log_exec (w : W) : result :=
  if f64_le (arg 0) 0 then wrong (u "Cannot take logarithm of zero or a negative number") w else number (m_ln lm (arg 0)) w.
Definition sqr_exec (w : W) : result :=
  if f64_lt (arg 0) 0 then wrong (u "Cannot take square root of a negative number") w else number (f64_sqrt (arg 0)) w.
(** numerics.rs 650-659 and 695-704: the loops; [scope.nargs() as u8] wraps. *)
Definition looped : list N := map arg (seq 0 (length pos mod 256)).
Definition max_exec (w : W) : result := number (fold_left (fun max n => if f64_lt max n then n else max) looped f64_min) w.
Definition min_exec (w : W) : result := number (fold_left (fun min n => if f64_lt n min then n else min) looped f64_max) w.
(** numerics.rs 731-734. *)
Definition pi_exec (w : W) : result := number f64_pi w.
(** numerics.rs 814-823. *)
Definition randomize_exec (w : W) : result :=
  if length pos =? 0 then Some (prng_entropy w, Ok None) else Some (prng_seed (as_i32 (arg 0)) w, Ok None).
(** numerics.rs 872-888. *)
Definition rnd_exec (w : W) : result :=
  let next := prng_next w in
  if length pos =? 0 then number (prng_last next) next
  else
    let n := as_i32 (arg 0) in
    match (n ?= 0)%Z with
    | Eq => number (prng_last w) w
    | Gt => number (prng_last next) next
    | Lt => let w := prng_seed n w in number (prng_last w) w
    end.
(** numerics.rs 949-959. *)
Definition round_exec (w : W) : result :=
  if length pos =? 1 then number (f64_round (arg 0)) w
  else
    let factor := m_powi lm 0x4024000000000000%N (as_i32 (arg 1)) in
    number (f64_div (f64_round (f64_mul (arg 0) factor)) factor) w.
(** numerics.rs 992-1003. *)
Definition sgn_exec (w : W) : result :=
  Some (w, Ok (Some (CInt (if f64_lt 0 (arg 0) then 1 else if f64_lt (arg 0) 0 then -1 else 0)%Z))).
End Scope.

(** The declarations of each one, and numerics.rs 1141-1175. *)
Definition takes (name : ustr) (ret : option etype) (syn : list callable_syntax) : callable_md := mkMd name ret false syn false.
Definition one_double (p : ustr) : callable_syntax := mkSyntax [RequiredValue p TDouble SepEndOnly] None.
Definition one_integer (p : ustr) : callable_syntax := mkSyntax [RequiredValue p TInteger SepEndOnly] None.
Definition nothing : callable_syntax := mkSyntax [] None.
Definition some_doubles : callable_syntax :=
  mkSyntax [] (Some (mkRepeated (u "expr") (RepTyped TDouble) (SepExactly SepLong) true false)).
Definition numeric (name : ustr) (ret : option etype) (syn : list callable_syntax)
    (exec : (nat -> N) -> list linecol -> W -> option (W * res call_failure (option cdatum))) : provided W :=
  mkProvided name (takes name ret syn) (fun arg text_of pos => exec arg pos).
Definition numerics_provided : list (provided W) :=
  [ numeric (u "ABS") (Some TDouble) [one_double (u "expr")] (fun arg pos => abs_exec arg);
    numeric (u "ACOS") (Some TDouble) [one_double (u "n")] acos_exec;
    numeric (u "ASIN") (Some TDouble) [one_double (u "n")] asin_exec;
    numeric (u "ATN") (Some TDouble) [one_double (u "n")] (fun arg pos => atn_exec arg);
    numeric (u "CINT") (Some TInteger) [one_double (u "expr")] cint_exec;
    numeric (u "COS") (Some TDouble) [one_double (u "angle")] (fun arg pos => cos_exec arg);
    numeric (u "DEG") None [nothing] (fun arg pos => angle_exec true);
    numeric (u "EXP") (Some TDouble) [one_double (u "expr")] exp_exec;
    numeric (u "FIX") (Some TInteger) [one_double (u "expr")] fix_exec;
    numeric (u "INT") (Some TInteger) [one_double (u "expr")] int_exec;
    numeric (u "LOG") (Some TDouble) [one_double (u "num")] log_exec;
    numeric (u "MAX") (Some TDouble) [some_doubles] max_exec;
    numeric (u "MIN") (Some TDouble) [some_doubles] min_exec;
    numeric (u "PI") (Some TDouble) [nothing] (fun arg pos => pi_exec);
    numeric (u "RAD") None [nothing] (fun arg pos => angle_exec false);
    numeric (u "RANDOMIZE") None [nothing; one_integer (u "seed")] randomize_exec;
    numeric (u "RND") (Some TDouble) [nothing; one_integer (u "n")] rnd_exec;
    numeric (u "ROUND") (Some TDouble)
      [one_double (u "expr"); mkSyntax [RequiredValue (u "expr") TDouble (SepExactly SepLong); RequiredValue (u "decimals") TInteger SepEndOnly] None]
      round_exec;
    numeric (u "SGN") (Some TInteger) [one_double (u "n")] (fun arg pos => sgn_exec arg);
    numeric (u "SIN") (Some TDouble) [one_double (u "angle")] (fun arg pos => sin_exec arg);
    numeric (u "SQR") (Some TDouble) [one_double (u "num")] sqr_exec;
    numeric (u "TAN") (Some TDouble) [one_double (u "angle")] (fun arg pos => tan_exec arg) ].
End Numerics.
