(** What the commands of the console should do. *)
From Coq Require Import String Floats.SpecFloat.
From Verif Require Import Base Bytecode_Model Mem_Model Num_Model Vm_Model Ast_Model Strings_Spec Call_Spec Cmds_Model.
Local Open Scope string_scope.
Local Open Scope list_scope.
Local Open Scope nat_scope.

(** * Texts of values *)

(** The digits of a number, without leading zeros. *)
Definition numeral (z : Z) (d : ustr) : Prop :=
  digits d /\ d <> [] /\ (forall r, d = 48%N :: r -> r = []) /\ digits_value 0 d = Z.abs z.

Definition space : N := 32%N.

Section Shown.
(** The text that Rust gives to the magnitude and the sign, if there is one, of a double. *)
Variable show_double : N -> ustr.
Definition negative_double (x : N) : Prop := f64_sf x <> S754_nan /\ N.testbit x 63 = true.

(** Numbers without a sign get a space in its place. *)
Inductive shows : cdatum -> ustr -> Prop :=
| Shows_true : shows (CBool true) (u "TRUE")
| Shows_false : shows (CBool false) (u "FALSE")
| Shows_negative z d : (z < 0)%Z -> numeral z d -> shows (CInt z) (u "-" ++ d)
| Shows_positive z d : (0 <= z)%Z -> numeral z d -> shows (CInt z) (space :: d)
| Shows_negative_double x : negative_double x -> shows (CDouble x) (show_double x)
| Shows_positive_double x : ~ negative_double x -> shows (CDouble x) (space :: show_double x)
| Shows_text s : shows (CText s) s.

(** * PRINT *)

(** One argument of PRINT: a value or nothing, and the separator after it. *)
Definition item : Type := option cdatum * argsep.

Definition bytes (t : ustr) : nat := list_sum (map utf8_len1 t).

(** [spells t l t']: with the text [t] written so far, the arguments [l] make it [t']. *)
Inductive spells : ustr -> list item -> ustr -> Prop :=
| Spells_value t d sep l v t' : shows d v -> spells_after (t ++ v) (Some d) sep l t' -> spells t ((Some d, sep) :: l) t'
| Spells_nothing t sep l t' : spells_after t None sep l t' -> spells t ((None, sep) :: l) t'
(* What the separator after a value does *)
with spells_after : ustr -> option cdatum -> argsep -> list item -> ustr -> Prop :=
| After_last t v : spells_after t v SepEnd [] t
| After_text t s l t' : spells t l t' -> spells_after t (Some (CText s)) SepShort l t'
| After_nothing t l t' : spells t l t' -> spells_after t None SepShort l t'
| After_number t d l t' : (forall s, d <> CText s) -> spells (t ++ [space]) l t' ->
    spells_after t (Some d) SepShort l t'
(* The next value goes to the next column that is a multiple of 14, after one space at least *)
| After_comma t v k l t' : 1 <= k <= 14 -> (bytes t + k) mod 14 = 0 -> spells (t ++ repeat space k) l t' ->
    spells_after t v SepLong l t'.

(** The cursor moves on to the next line unless the last separator has nothing after it. *)
Definition ends_line (l : list item) : Prop :=
  l = [(None, SepEnd)] \/ exists l' d, l = l' ++ [(Some d, SepEnd)].

Inductive print_does (l : list item) : con_op -> Prop :=
| Does_print t : spells [] l t -> ends_line l -> print_does l (OpPrint t)
| Does_write t : spells [] l t -> ~ ends_line l -> print_does l (OpWrite t).
End Shown.

(** Arguments as they come from the source: only the last one has no separator. *)
Definition item_list (l : list item) : Prop :=
  exists l' v, l = l' ++ [(v, SepEnd)] /\ Forall (fun i => snd i = SepShort \/ snd i = SepLong) l'.

(** What PRINT is given for them. *)
Definition item_slots (i : item) : list given :=
  match i with
  | (Some d, sep) => [GTag (VImmediate sep (cdatum_etype d)); GValue d]
  | (None, sep) => [GTag (VMissing sep)]
  end.
Definition slots (l : list item) : list given := flat_map item_slots l.

(** The slots of a command as it sees them. *)
Section Given.
Variable arg : nat -> N.
Variable text_of : N -> option ustr.
(** The slot [k] has what is given. *)
Definition given_at (k : nat) (g : given) : Prop :=
  match g with
  | GValue (CBool b) => arg k = if b then 1%N else 0%N
  | GValue (CDouble x) => arg k = x
  | GValue (CInt z) => as_i32 (arg k) = z
  | GValue (CText s) => text_of (arg k) = Some s
  | GTag t => arg k = vararg_make t
  | GRef _ _ => False
  end.
Definition given_from (reg : nat) (gs : list given) : Prop :=
  forall k g, nth_error gs k = Some g -> given_at (reg + k) g.
End Given.

(** * COLOR and LOCATE *)

(** [COLOR a, b], where each may be left out, gets its arguments with tags; the second with no
    separator after it. *)
Definition color_slots (a b : option Z) : list given :=
  let one v sep := match v with Some z => [GTag (VImmediate sep TInteger); GValue (CInt z)] | None => [GTag (VMissing sep)] end in
  one a SepLong ++ one b SepEnd.

(** The slot of the value of the second one. *)
Definition second_slot (a : option Z) : nat := match a with Some _ => 3 | None => 2 end.

(** A color that is left out is the default one. *)
Definition color_of (v : option Z) : option N := option_map Z.to_N v.
Definition is_color (z : Z) : Prop := (0 <= z <= 255)%Z.
Definition may_color (v : option Z) : Prop := forall z, v = Some z -> is_color z.

(** What the command does with what it is given: an operation, or a failure with a message. *)
Inductive color_does : list given -> res ustr con_op -> Prop :=
| Color_none : color_does [] (Ok (OpColor None None))
| Color_one z : is_color z -> color_does [GValue (CInt z)] (Ok (OpColor (Some (Z.to_N z)) None))
| Color_both a b : may_color a -> may_color b -> color_does (color_slots a b) (Ok (OpColor (color_of a) (color_of b)))
| Color_wrong z : ~ is_color z -> color_does [GValue (CInt z)] (Err (u "Color out of range"))
| Color_both_wrong a b : ~ (may_color a /\ may_color b) -> color_does (color_slots a b) (Err (u "Color out of range")).

Definition too_large (name : ustr) (z : Z) (size : N) (msg : ustr) : Prop := exists d d',
  numeral z d /\ numeral (Z.of_N size - 1) d' /\ msg = name ++ u " " ++ d ++ u " exceeds visible range of " ++ d'.

(** [LOCATE x, y] on a console of some size. *)
Inductive locate_does (size : res ustr (N * N)) : list given -> res ustr con_op -> Prop :=
| Locate_there sx sy x y : size = Ok (sx, sy) -> (0 < sx < 2 ^ 16)%N -> (0 < sy < 2 ^ 16)%N ->
    (0 <= x < Z.of_N sx)%Z -> (0 <= y < Z.of_N sy)%Z ->
    locate_does size [GValue (CInt x); GValue (CInt y)] (Ok (OpLocate (Z.to_N x) (Z.to_N y)))
| Locate_no_column x y : ~ (0 <= x < 2 ^ 16)%Z -> locate_does size [GValue (CInt x); GValue (CInt y)] (Err (u "Column out of range"))
| Locate_no_row x y : (0 <= x < 2 ^ 16)%Z -> ~ (0 <= y < 2 ^ 16)%Z ->
    locate_does size [GValue (CInt x); GValue (CInt y)] (Err (u "Row out of range"))
| Locate_unknown x y msg : (0 <= x < 2 ^ 16)%Z -> (0 <= y < 2 ^ 16)%Z -> size = Err msg ->
    locate_does size [GValue (CInt x); GValue (CInt y)] (Err msg)
| Locate_right sx sy x y msg : size = Ok (sx, sy) -> (0 < sx < 2 ^ 16)%N -> (0 < sy < 2 ^ 16)%N ->
    (Z.of_N sx <= x < 2 ^ 16)%Z -> (0 <= y < 2 ^ 16)%Z -> too_large (u "Column") x sx msg ->
    locate_does size [GValue (CInt x); GValue (CInt y)] (Err msg)
| Locate_below sx sy x y msg : size = Ok (sx, sy) -> (0 < sx < 2 ^ 16)%N -> (0 < sy < 2 ^ 16)%N ->
    (0 <= x < Z.of_N sx)%Z -> (Z.of_N sy <= y < 2 ^ 16)%Z -> too_large (u "Row") y sy msg ->
    locate_does size [GValue (CInt x); GValue (CInt y)] (Err msg).

(** * The console as what programs can call *)

Section Calls.
Variable show_double : N -> ustr.
Context {W : Type}.
Variable perform : con_op -> W -> W * option ustr.
Variable size : W -> res ustr (N * N).

(** One operation of the console, with its error if it fails. *)
Definition operated (op : con_op) (s : env W) (r : res vm_error (option cdatum)) (s' : env W) : Prop :=
  exists e, perform op (world s) = (world s', e) /\ vals s' = vals s /\
    r = match e with None => Ok None | Some msg => Err (XUpcall msg) end.
(** An operation, or a failure before it. *)
Definition attempted (o : res ustr con_op) (s : env W) (r : res vm_error (option cdatum)) (s' : env W) : Prop :=
  match o with
  | Ok op => operated op s r s'
  | Err msg => r = Err (XUpcall msg) /\ s' = s
  end.

(** What the commands of the console do; others do what [others] says. *)
Variable others : ustr -> list given -> env W -> res vm_error (option cdatum) -> env W -> Prop.
Definition of_console (k : ustr) : Prop := In k (map fst console_upcalls).

Inductive console_calls : ustr -> list given -> env W -> res vm_error (option cdatum) -> env W -> Prop :=
| Calls_cls s r s' : operated OpClear s r s' -> console_calls (u "CLS") [] s r s'
| Calls_color gs o s r s' : color_does gs o -> attempted o s r s' -> console_calls (u "COLOR") gs s r s'
| Calls_locate gs o s r s' : locate_does (size (world s)) gs o -> attempted o s r s' -> console_calls (u "LOCATE") gs s r s'
| Calls_print s l op r s' : item_list l -> length (slots l) < 256 -> print_does show_double l op -> operated op s r s' ->
    console_calls (u "PRINT") (slots l) s r s'
| Calls_columns s x y : size (world s) = Ok (x, y) -> (x < 2 ^ 16)%N ->
    console_calls (u "SCRCOLS") [] s (Ok (Some (CInt (Z.of_N x)))) s
| Calls_rows s x y : size (world s) = Ok (x, y) -> (y < 2 ^ 16)%N ->
    console_calls (u "SCRROWS") [] s (Ok (Some (CInt (Z.of_N y)))) s
| Calls_no_columns s msg : size (world s) = Err msg -> console_calls (u "SCRCOLS") [] s (Err (XUpcall msg)) s
| Calls_no_rows s msg : size (world s) = Err msg -> console_calls (u "SCRROWS") [] s (Err (XUpcall msg)) s
| Calls_other k gs s r s' : ~ of_console k -> others k gs s r s' -> console_calls k gs s r s'.
End Calls.

(** The values of the arguments of PRINT, from left to right. *)
Inductive item_values powf {W} (callable : ustr -> option callable_md) (variable : ustr -> bool)
    (calls : ustr -> list given -> env W -> res vm_error (option cdatum) -> env W -> Prop)
  : env W -> list argspan -> list item -> env W -> Prop :=
| Items_none s : item_values powf callable variable calls s [] [] s
| Items_value s e sep p args d s1 l s2 : evals powf callable variable calls s e (Ok d) s1 ->
    item_values powf callable variable calls s1 args l s2 ->
    item_values powf callable variable calls s ((Some e, sep, p) :: args) ((Some d, sep) :: l) s2
| Items_nothing s sep p args l s2 : item_values powf callable variable calls s args l s2 ->
    item_values powf callable variable calls s ((None, sep, p) :: args) ((None, sep) :: l) s2.

(** PRINT without arguments is as with one that has nothing. *)
Definition some_item (l : list item) : list item := match l with [] => [(None, SepEnd)] | _ => l end.

(** Characters that take one byte. *)
Definition ascii (t : ustr) : Prop := Forall (fun c => (c < 128)%N) t.
Definition ascii_item show (i : item) : Prop := forall d t, fst i = Some d -> shows show d t -> ascii t.
