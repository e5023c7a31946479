(** What the string functions are to do in programs. *)
From Coq Require Import String.
From Verif Require Import Base Bytecode_Model Mem_Model Num_Model Vm_Model Ast_Model Text_Model Text_Proofs Linebuf_Spec Strings_Model Strings_Spec Call_Spec
  Cmds_Spec Lib_Spec.
Local Open Scope string_scope.
Local Open Scope list_scope.
Local Open Scope Z_scope.

(** [t] is [s] without the white space before it, or after it. *)
Definition trims_start (s t : ustr) : Prop := exists a, s = a ++ t /\ spaces a /\ no_space_first t.
Definition trims_end (s t : ustr) : Prop := exists z, s = t ++ z /\ spaces z /\ no_space_last t.

(** The numbers of characters that there are. *)
Definition upto (n : Z) (s : ustr) : nat := Nat.min (Z.to_nat n) (length s).
Definition character (i : Z) : Prop := 0 <= i < 55296 \/ 57344 <= i < 1114112.
Definition negative_ (p : string) : ustr := u p ++ u "% cannot be negative".

Section Textfns.
Variables (lowercase uppercase : ustr -> ustr) (show_double : N -> ustr) (parse_f64 : ustr -> N).

(** A function of values only. *)
Inductive gives : ustr -> list given -> res ustr cdatum -> Prop :=
| Gives_asc c : text [c] -> gives (u "ASC") [GValue (CText [c])] (Ok (CInt (Z.of_N c)))
| Gives_asc_not s : text s -> length s <> 1%nat ->
    gives (u "ASC") [GValue (CText s)] (Err (u "Input string """ ++ s ++ u """ must be 1-character long"))
| Gives_chr i : character i -> gives (u "CHR") [GValue (CInt i)] (Ok (CText [Z.to_N i]))
| Gives_chr_negative i d : i < 0 -> numeral i d -> gives (u "CHR") [GValue (CInt i)] (Err (u "Character code -" ++ d ++ u " must be positive"))
| Gives_chr_not i d : 0 <= i -> ~ character i -> numeral i d -> gives (u "CHR") [GValue (CInt i)] (Err (u "Invalid character code " ++ d))
| Gives_instr s t i : text s -> text t -> Z.of_nat (length s) < i32_max -> first_occurrence s t 1 i ->
    gives (u "INSTR") [GValue (CText s); GValue (CText t)] (Ok (CInt i))
| Gives_instr_from z s t i : text s -> text t -> Z.of_nat (length s) < i32_max -> 0 < z -> first_occurrence s t z i ->
    gives (u "INSTR") [GValue (CInt z); GValue (CText s); GValue (CText t)] (Ok (CInt i))
| Gives_instr_not z s t : text s -> text t -> z <= 0 ->
    gives (u "INSTR") [GValue (CInt z); GValue (CText s); GValue (CText t)] (Err (u "start% must be positive"))
| Gives_lcase s : gives (u "LCASE") [GValue (CText s)] (Ok (CText (lowercase s)))
| Gives_ucase s : gives (u "UCASE") [GValue (CText s)] (Ok (CText (uppercase s)))
| Gives_left s n t : text s -> 0 <= n -> part s 0 (upto n s) t -> gives (u "LEFT") [GValue (CText s); GValue (CInt n)] (Ok (CText t))
| Gives_left_not s n : text s -> n < 0 -> gives (u "LEFT") [GValue (CText s); GValue (CInt n)] (Err (negative_ "n"))
| Gives_right s n t : text s -> 0 <= n -> part s (length s - Z.to_nat n) (upto n s) t ->
    gives (u "RIGHT") [GValue (CText s); GValue (CInt n)] (Ok (CText t))
| Gives_right_not s n : text s -> n < 0 -> gives (u "RIGHT") [GValue (CText s); GValue (CInt n)] (Err (negative_ "n"))
| Gives_mid s n t k : text s -> 0 <= n -> part s (upto n s) k t -> (upto n s + k = length s)%nat ->
    gives (u "MID") [GValue (CText s); GValue (CInt n)] (Ok (CText t))
| Gives_mid_length s n l t : text s -> 0 <= n -> 0 <= l -> part s (upto n s) (Nat.min (Z.to_nat l) (length s - upto n s)) t ->
    gives (u "MID") [GValue (CText s); GValue (CInt n); GValue (CInt l)] (Ok (CText t))
| Gives_mid_not s n : text s -> n < 0 -> gives (u "MID") [GValue (CText s); GValue (CInt n)] (Err (negative_ "start"))
| Gives_mid_length_not s n l : text s -> n < 0 -> gives (u "MID") [GValue (CText s); GValue (CInt n); GValue (CInt l)] (Err (negative_ "start"))
| Gives_mid_not_length s n l : text s -> 0 <= n -> l < 0 ->
    gives (u "MID") [GValue (CText s); GValue (CInt n); GValue (CInt l)] (Err (negative_ "length"))
| Gives_len s : text s -> Z.of_nat (length s) <= i32_max -> gives (u "LEN") [GValue (CText s)] (Ok (CInt (Z.of_nat (length s))))
| Gives_len_not s : text s -> i32_max < Z.of_nat (length s) -> gives (u "LEN") [GValue (CText s)] (Err (u "String too long"))
| Gives_ltrim s t : text s -> trims_start s t -> gives (u "LTRIM") [GValue (CText s)] (Ok (CText t))
| Gives_rtrim s t : text s -> trims_end s t -> gives (u "RTRIM") [GValue (CText s)] (Ok (CText t))
| Gives_trim s m t : text s -> trims_start s m -> trims_end m t -> gives (u "TRIM") [GValue (CText s)] (Ok (CText t))
| Gives_space n t : 0 <= n -> Z.of_nat (length t) = n -> Forall (eq 32%N) t -> gives (u "SPACE") [GValue (CInt n)] (Ok (CText t))
| Gives_space_not n : n < 0 -> gives (u "SPACE") [GValue (CInt n)] (Err (negative_ "n"))
| Gives_str d t : shows show_double d t -> gives (u "STR") [GTag (VImmediate SepEnd (cdatum_etype d)); GValue d] (Ok (CText t))
(* The longest number after the white space, which is the same in characters and in bytes *)
| Gives_val s t p : text s -> trims_start s t -> longest_number (collect t) p -> gives (u "VAL") [GValue (CText s)] (Ok (CDouble (parse_f64 p)))
| Gives_val_zero s t : text s -> trims_start s t -> (forall q r, collect t = q ++ r -> ~ number q) -> gives (u "VAL") [GValue (CText s)] (Ok (CDouble 0%N)).

Definition strings_does {W} : doing W := fun k gs w r w' => w' = w /\ exists v, gives k gs v /\ r = match v with Ok d => Ok (Some d) | Err msg => Err msg end.
End Textfns.
