(** The string functions as callables: std/src/strings.rs. *)
From Coq Require Import String.
From Verif Require Import Base Bytecode_Model Mem_Model Num_Model Vm_Model Ast_Model Syms_Model Text_Model Strings_Model Cmds_Model Lib_Model.
Local Open Scope string_scope.
Local Open Scope list_scope.
Local Open Scope nat_scope.

Section Textfns.
(** What is not modelled of the standard library: [str::to_lowercase] and [str::to_uppercase],
    [f64::to_string], and [f64::from_str] of literals, as bits. *)
Variables (lowercase uppercase : ustr -> ustr) (show_double : N -> ustr) (parse_f64 : ustr -> N).
Context {W : Type}.

Section Scope.
Variable arg : nat -> N.
Variable text_of : N -> option ustr.
Variable pos : list linecol.
Notation result := (option (W * res call_failure (option cdatum))).

(** The errors of [Strings_Model], with the names of the parameters. *)
Definition fn_failure (params : list ustr) (e : fn_error) : option nat * ustr :=
  match e with
  | FnNotOneChar k s => (Some k, u "Input string """ ++ chars s ++ u """ must be 1-character long")
  | FnCodeNegative k i => (Some k, u "Character code " ++ to_string i ++ u " must be positive")
  | FnCodeInvalid k c => (Some k, u "Invalid character code " ++ to_string (Z.of_N c))
  | FnStartNotPositive k => (Some k, u "start% must be positive")
  | FnNegative k => (Some k, nth k params [] ++ u "% cannot be negative")
  | FnTooLong => (None, u "String too long")
  end.
(** A value or one of those errors; the outer [None] is a panic. *)
Definition answer {A} (value : A -> cdatum) (params : list ustr) (r : option (res fn_error A)) (w : W) : result :=
  match r with
  | None => None
  | Some (Ok a) => Some (w, Ok (Some (value a)))
  | Some (Err e) =>
      match fn_failure params e with
      | (Some k, msg) => match syntax_error (A := option cdatum) pos k msg with Some r => Some (w, r) | None => None end
      | (None, msg) => Some (w, Err (None, msg))
      end
  end.
(** Texts of the machine are characters and those of [Strings_Model] are bytes. *)
Definition text_value (b : list N) : cdatum := CText (chars b).
Definition with_text (k : nat) (f : list N -> result) : result :=
  match text_of (arg k) with Some s => f (collect s) | None => None end.

(** strings.rs 181-208 and 247-265. *)
Definition asc_exec (w : W) : result := with_text 0 (fun s => answer CInt [u "char"] (Some (fn_asc s)) w).
Definition chr_exec (w : W) : result := answer text_value [u "code"] (Some (fn_chr (as_i32 (arg 0)))) w.
(** strings.rs 342-372. *)
Definition instr_exec (w : W) : result :=
  if length pos =? 2 then with_text 0 (fun s => with_text 1 (fun t => answer CInt [] (fn_instr None s t) w))
  else with_text 1 (fun s => with_text 2 (fun t => answer CInt [] (fn_instr (Some (as_i32 (arg 0))) s t) w)).
(** strings.rs 407-412 and 942-947. *)
Definition lcase_exec (w : W) : result := match text_of (arg 0) with Some s => Some (w, Ok (Some (CText (lowercase s)))) | None => None end.
Definition ucase_exec (w : W) : result := match text_of (arg 0) with Some s => Some (w, Ok (Some (CText (uppercase s)))) | None => None end.
(** strings.rs 461-472, 505-512, 545-550, 628-656, 705-717, 750-755, 791-800 and 902-907. *)
Definition left_exec (w : W) : result := with_text 0 (fun s => answer text_value [u "expr"; u "n"] (fn_left s (as_i32 (arg 1))) w).
Definition len_exec (w : W) : result := with_text 0 (fun s => answer CInt [u "expr"] (Some (fn_len s)) w).
Definition ltrim_exec (w : W) : result := with_text 0 (fun s => answer text_value [u "expr"] (Some (Ok (fn_ltrim s))) w).
Definition mid_exec (w : W) : result :=
  let length_ := if length pos =? 3 then Some (as_i32 (arg 2)) else None in
  with_text 0 (fun s => answer text_value [u "expr"; u "start"; u "length"] (fn_mid s (as_i32 (arg 1)) length_) w).
Definition right_exec (w : W) : result := with_text 0 (fun s => answer text_value [u "expr"; u "n"] (fn_right s (as_i32 (arg 1))) w).
Definition rtrim_exec (w : W) : result := with_text 0 (fun s => answer text_value [u "expr"] (Some (Ok (fn_rtrim s))) w).
Definition space_exec (w : W) : result := answer text_value [u "n"] (Some (fn_space (as_i32 (arg 0)))) w.
Definition trim_exec (w : W) : result := with_text 0 (fun s => answer text_value [u "expr"] (Some (Ok (fn_trim s))) w).
(** strings.rs 842-867, where the last arm is unreachable. *)
Definition str_exec (w : W) : result :=
  match vararg_parse (arg 0) with
  | Some (VImmediate _ t) =>
      match print_value arg text_of show_double t 1 with Some (s, _) => Some (w, Ok (Some (CText s))) | None => None end
  | _ => None
  end.
(** strings.rs 985-990 and 99-143. *)
Definition val_exec (w : W) : result :=
  with_text 0 (fun s =>
    match parse_numeric_prefix s with
    | NpZero => Some (w, Ok (Some (CDouble 0%N)))
    | NpParse p => Some (w, Ok (Some (CDouble (parse_f64 p))))
    | NpPanic => None
    end).
End Scope.

(** The declarations of each one, and strings.rs 993-1009. *)
Definition req (name : string) (t : etype) (sep : argsep_syntax) : singular_syntax := RequiredValue (u name) t sep.
Definition comma : argsep_syntax := SepExactly SepLong.
Definition one_text (p : string) : callable_syntax := mkSyntax [req p TText SepEndOnly] None.
Definition stringy (name : ustr) (ret : etype) (syn : list callable_syntax)
    (exec : (nat -> N) -> (N -> option ustr) -> list linecol -> W -> option (W * res call_failure (option cdatum))) : provided W :=
  mkProvided name (mkMd name (Some ret) false syn false) exec.
Definition strings_provided : list (provided W) :=
  [ stringy (u "ASC") TInteger [one_text "char"] asc_exec;
    stringy (u "CHR") TText [mkSyntax [req "code" TInteger SepEndOnly] None] (fun arg text_of pos => chr_exec arg pos);
    stringy (u "INSTR") TInteger
      [mkSyntax [req "expr" TText comma; req "search" TText SepEndOnly] None;
       mkSyntax [req "start" TInteger comma; req "expr" TText comma; req "search" TText SepEndOnly] None] instr_exec;
    stringy (u "LCASE") TText [one_text "expr"] (fun arg text_of pos => lcase_exec arg text_of);
    stringy (u "LEFT") TText [mkSyntax [req "expr" TText comma; req "n" TInteger SepEndOnly] None] left_exec;
    stringy (u "LEN") TInteger [one_text "expr"] len_exec;
    stringy (u "LTRIM") TText [one_text "expr"] ltrim_exec;
    stringy (u "MID") TText
      [mkSyntax [req "expr" TText comma; req "start" TInteger SepEndOnly] None;
       mkSyntax [req "expr" TText comma; req "start" TInteger comma; req "length" TInteger SepEndOnly] None] mid_exec;
    stringy (u "RIGHT") TText [mkSyntax [req "expr" TText comma; req "n" TInteger SepEndOnly] None] right_exec;
    stringy (u "RTRIM") TText [one_text "expr"] rtrim_exec;
    stringy (u "SPACE") TText [mkSyntax [req "n" TInteger SepEndOnly] None] (fun arg text_of pos => space_exec arg pos);
    stringy (u "STR") TText [mkSyntax [AnyValue (u "expr") false SepEndOnly] None] (fun arg text_of pos => str_exec arg text_of);
    stringy (u "TRIM") TText [one_text "expr"] trim_exec;
    stringy (u "UCASE") TText [one_text "expr"] (fun arg text_of pos => ucase_exec arg text_of);
    stringy (u "VAL") TDouble [one_text "expr"] (fun arg text_of pos => val_exec arg text_of) ].
End Textfns.
