(** What the string functions should return. *)
From Verif Require Import Base Text_Model Text_Proofs Linebuf_Spec Strings_Model.

(** [n] occurs in [s] after exactly [k] characters. *)
Definition occurs_at (s n : ustr) (k : nat) : Prop :=
  exists pre post, s = pre ++ n ++ post /\ length pre = k.

(** [i] is the one-based position of the first occurrence at or after position [start], or 0. *)
Definition first_occurrence (s n : ustr) (start i : Z) : Prop :=
  (i = 0%Z /\ forall k, (start <= Z.of_nat k + 1)%Z -> ~ occurs_at s n k) \/
  (exists k, i = (Z.of_nat k + 1)%Z /\ (start <= i)%Z /\ occurs_at s n k /\
     forall j, (start <= Z.of_nat j + 1)%Z -> j < k -> ~ occurs_at s n j).

Definition spaces (s : ustr) : Prop := Forall (fun c => is_whitespace c = true) s.
(** No character at that end, or one that is not white space. *)
Definition no_space_first (s : ustr) : Prop := forall c r, s = c :: r -> is_whitespace c = false.
Definition no_space_last (s : ustr) : Prop := forall c r, s = r ++ [c] -> is_whitespace c = false.

(** * Numbers *)

Definition digits (l : list N) : Prop := Forall (fun c => (48 <= c <= 57)%N) l.
Definition sign (l : list N) : Prop := l = [] \/ l = [43%N] \/ l = [45%N].

(** Digits, with at most one period among or around them. *)
Definition mantissa (m : list N) : Prop :=
  (digits m /\ m <> []) \/
  (exists d f, m = d ++ [46%N] ++ f /\ digits d /\ digits f /\ (d <> [] \/ f <> [])).

Definition exponent (e : list N) : Prop :=
  e = [] \/ exists c s d, e = c :: s ++ d /\ (c = 101%N \/ c = 69%N) /\ sign s /\ digits d /\ d <> [].

(** The literals accepted by Rust's [f64::from_str], except for infinities and NaN. *)
Definition number (p : list N) : Prop :=
  exists s m e, p = s ++ m ++ e /\ sign s /\ mantissa m /\ exponent e.

(** The longest prefix of [t] that is a number. *)
Definition longest_number (t p : list N) : Prop :=
  number p /\ (exists r, t = p ++ r) /\
  forall q r, t = q ++ r -> number q -> length q <= length p.

(** The value of decimal digits. *)
Fixpoint digits_value (acc : Z) (l : list N) : Z :=
  match l with [] => acc | c :: r => digits_value (acc * 10 + (Z.of_N c - 48)) r end.

(** The integer a text denotes: an optional sign and digits. *)
Definition denotes_integer (s : list N) (i : Z) : Prop :=
  exists sg d, s = sg ++ d /\ sign sg /\ digits d /\ d <> [] /\
    i = (if match sg with 45%N :: _ => true | _ => false end then - digits_value 0 d else digits_value 0 d)%Z.
