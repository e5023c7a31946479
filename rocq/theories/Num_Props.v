(** Properties C08, C09: integer arithmetic and conversions between doubles and integers. *)
From Verif Require Import Base Mem_Model Num_Model Num_Spec Num_Proofs.
Local Open Scope Z_scope.

Theorem C08_exact_or_error :
  forall l r,
  exact_or EOverflow (l + r) (checked_add_integer l r) /\
  exact_or EUnderflow (l - r) (checked_sub_integer l r) /\
  exact_or EOverflow (l * r) (checked_mul_integer l r) /\
  exact_or EOverflow (- l) (checked_neg_integer l) /\
  (0 <= r -> exact_or EOverflow (l ^ r) (power_integer l r)) /\
  (r < 0 -> power_integer l r = Err (ENegExponent r)).
Proof.
  exact (fun l r => conj (checked_exact _ _) (conj (checked_exact _ _) (conj (checked_exact _ _)
    (conj (checked_exact _ _) (conj (proj2 (pow_char l r)) (proj1 (pow_char l r))))))).
Qed.
Print Assumptions C08_exact_or_error.

Theorem C08_division :
  forall l r, in_i32 l -> in_i32 r ->
  (r = 0 -> checked_div_integer l r = Err EDivZero /\ checked_mod_integer l r = Err EModZero) /\
  (r <> 0 -> exists q m, truncated_division l r q m /\
     (forall q' m', truncated_division l r q' m' -> q' = q /\ m' = m) /\
     exact_or EUnderflow q (checked_div_integer l r) /\
     (in_i32 q -> checked_mod_integer l r = Ok m /\ in_i32 m) /\
     (~ in_i32 q -> checked_mod_integer l r = Err EUnderflow)).
Proof.
  intros l r Hl Hr. destruct (div_char l r) as [D0 D]. destruct (mod_char l r Hl Hr) as [M0 M].
  split; [intros E; exact (conj (D0 E) (M0 E))|]. intros NZ.
  exists (Z.quot l r), (Z.rem l r). pose proof (trunc_div l r NZ) as T.
  split; [exact T|]. split; [|split; [exact (D NZ _ _ T)|exact (M NZ _ _ T)]].
  intros q' m' T'. exact (truncated_division_unique _ _ _ _ _ _ T' T).
Qed.
Print Assumptions C08_division.

Theorem C08_bits :
  forall l r, in_i32 l -> in_i32 r ->
  (exists a, checked_and_integer l r = Ok a /\ in_i32 a /\
     forall i, 0 <= i -> Z.testbit a i = Z.testbit l i && Z.testbit r i) /\
  (exists a, checked_or_integer l r = Ok a /\ in_i32 a /\
     forall i, 0 <= i -> Z.testbit a i = Z.testbit l i || Z.testbit r i) /\
  (exists a, checked_xor_integer l r = Ok a /\ in_i32 a /\
     forall i, 0 <= i -> Z.testbit a i = xorb (Z.testbit l i) (Z.testbit r i)) /\
  (in_i32 (not_integer l) /\ forall i, 0 <= i -> Z.testbit (not_integer l) i = negb (Z.testbit l i)).
Proof.
  intros l r Hl Hr. destruct (bitop_i32 l r Hl Hr) as (A & B & C).
  split; [|split; [|split; [|split]]].
  - exists (Z.land l r). repeat split; [apply A|apply A|]. intros; apply Z.land_spec.
  - exists (Z.lor l r). repeat split; [apply B|apply B|]. intros; apply Z.lor_spec.
  - exists (Z.lxor l r). repeat split; [apply C|apply C|]. intros; apply Z.lxor_spec.
  - apply not_char, Hl.
  - intros; apply Z.lnot_spec; assumption.
Qed.
Print Assumptions C08_bits.

Theorem C08_shifts :
  forall l r, in_i32 l ->
  (r < 0 -> checked_shl_integer l r = Err (ENegShl r) /\ checked_shr_integer l r = Err (ENegShr r)) /\
  (0 <= r ->
   (exists v, checked_shl_integer l r = Ok v /\ in_i32 v /\ v mod 2 ^ 32 = (l * 2 ^ r) mod 2 ^ 32) /\
   (checked_shr_integer l r = Ok (l / 2 ^ r) /\ in_i32 (l / 2 ^ r))).
Proof.
  exact (fun l r Hl =>
    conj (fun N => conj (proj1 (shl_char l r) N) (proj1 (shr_char l r Hl) N))
         (fun P => conj (proj2 (shl_char l r) P) (proj2 (shr_char l r Hl) P))).
Qed.
Print Assumptions C08_shifts.

Example C08_case :
  checked_add_integer 2147483647 1 = Err EOverflow /\ checked_div_integer (-2147483648) (-1) = Err EUnderflow /\
  checked_div_integer (-7) 2 = Ok (-3) /\ checked_mod_integer (-7) 2 = Ok (-1) /\
  checked_shl_integer 1 31 = Ok (-2147483648) /\ checked_shr_integer (-5) 40 = Ok (-1) /\
  power_integer 2 31 = Err EOverflow /\ truncated_division (-7) 2 (-3) (-1).
Proof. repeat split; cbn; try lia; reflexivity. Qed.

Theorem C09_double_to_integer :
  forall bits,
  match double_value bits with
  | None => double_to_integer bits = None
  | Some (num, den) =>
      0 < den /\
      exists n, nearest_away num den n /\ (forall n', nearest_away num den n' -> n' = n) /\
        (in_i32 n -> double_to_integer bits = Some n) /\
        (~ in_i32 n -> double_to_integer bits = None)
  end.
Proof. exact double_to_integer_char. Qed.
Print Assumptions C09_double_to_integer.

Theorem C09_integer_to_double_exact :
  forall z, in_i32 z ->
  (exists num den, double_value (f64_of_i32 z) = Some (num, den) /\ 0 < den /\ num = z * den) /\
  double_to_integer (f64_of_i32 z) = Some z.
Proof. exact (fun z H => conj (f64_of_i32_value z H) (i32_double_roundtrip z H)). Qed.
Print Assumptions C09_integer_to_double_exact.

Theorem C09_int_function_floors :
  forall bits,
  match double_value bits with
  | None => int_function bits = None
  | Some (num, den) =>
      exists n, floor_of num den n /\
        (in_i32 n -> int_function bits = Some n) /\ (~ in_i32 n -> int_function bits = None)
  end.
Proof. exact int_function_char. Qed.
Print Assumptions C09_int_function_floors.

Theorem C09_patterns_are_doubles :
  forall bits, (bits < 2 ^ 64)%N -> f64_sf bits <> S754_nan -> f64_bits (f64_sf bits) = bits.
Proof. exact f64_bits_sf. Qed.
Print Assumptions C09_patterns_are_doubles.

(** 2.5, -2.5, 2147483647.5, NaN and an exact conversion. *)
Example C09_case :
  double_value 0x4004000000000000 = Some (5629499534213120, 2251799813685248) /\
  double_to_integer 0x4004000000000000 = Some 3 /\
  double_to_integer 0xC004000000000000 = Some (-3) /\
  double_to_integer 0x41DFFFFFFFE00000 = None /\
  double_to_integer 0x7ff8000000000000 = None /\
  int_function 0xC004000000000000 = Some (-3) /\ int_function 0x4004000000000000 = Some 2 /\
  f64_of_i32 (-3) = 0xC008000000000000%N /\
  f64_add 0x4004000000000000 0x4004000000000000 = 0x4014000000000000%N.
Proof. repeat split. Qed.
