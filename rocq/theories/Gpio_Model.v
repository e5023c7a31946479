(** The GPIO commands and functions, and the mock chip (std/src/gpio). *)
From Coq Require Import String.
From Verif Require Import Base Bytecode_Model Mem_Model Num_Model Vm_Model Ast_Model Syms_Model Strings_Model Cmds_Model Lib_Model.
Local Open Scope string_scope.
Local Open Scope list_scope.
Local Open Scope nat_scope.

(** gpio/mod.rs 57-71. *)
Inductive pin_mode := ModeIn | ModeInPullDown | ModeInPullUp | ModeOut.

(** gpio/mod.rs 94-120: the operations of [Pins]; a [Pin] is a [u8]. *)
Inductive pin_op :=
| SetupPin (pin : N) (mode : pin_mode)
| ClearPin (pin : N)
| ClearPins
| ReadPin (pin : N)
| WritePin (pin : N) (high : bool).

(** gpio/mod.rs 46-54. *)
Definition pin_from_i32 (i : Z) : res ustr N :=
  if (i <? 0)%Z then Err (u "Pin number " ++ to_string i ++ u " must be positive")
  else if (255 <? i)%Z then Err (u "Pin number " ++ to_string i ++ u " is too large")
  else Ok (Z.to_N i).

(** gpio/mod.rs 75-83. *)
Definition pin_mode_parse (s : ustr) : res ustr pin_mode :=
  let s := ascii_upper s in
  if ustr_eqb s (u "IN") then Ok ModeIn
  else if ustr_eqb s (u "IN-PULL-UP") then Ok ModeInPullUp
  else if ustr_eqb s (u "IN-PULL-DOWN") then Ok ModeInPullDown
  else if ustr_eqb s (u "OUT") then Ok ModeOut
  else Err (u "Unknown pin mode " ++ s).

Section Commands.
Context {W : Type}.
(** What the chip does, and the level that it reads or [true]; or its error. *)
Variable perform : pin_op -> W -> W * res ustr bool.

Section Scope.
Variable arg : nat -> N.
Variable text_of : N -> option ustr.
Variable args_pos : list linecol.

(** gpio/mod.rs 86-88. *)
Definition parse_pin (k : nat) : exec_result N :=
  match pin_from_i32 (as_i32 (arg k)) with
  | Ok pin => Some (Ok pin)
  | Err e => syntax_error args_pos k e
  end.
(** gpio/mod.rs 90-92. *)
Definition parse_pin_mode (k : nat) : exec_result pin_mode :=
  match text_of (arg k) with
  | None => None
  | Some s =>
      match pin_mode_parse s with
      | Ok mode => Some (Ok mode)
      | Err e => syntax_error args_pos k e
      end
  end.

(** Asking the chip for something; errors of [io] have no position (callable.rs 58-64). *)
Definition ask_chip (op : pin_op) (w : W) : W * res call_failure (option cdatum) :=
  match perform op w with
  | (w, Err e) => (w, Err (None, e))
  | (w, Ok level) => (w, Ok (match op with ReadPin _ => Some (CBool level) | _ => None end))
  end.

(** gpio/mod.rs 192-199. *)
Definition gpio_setup_exec (w : W) : option (W * res call_failure (option cdatum)) :=
  match parse_pin 0 with
  | None => None
  | Some (Err e) => Some (w, Err e)
  | Some (Ok pin) =>
      match parse_pin_mode 1 with
      | None => None
      | Some (Err e) => Some (w, Err e)
      | Some (Ok mode) => Some (ask_chip (SetupPin pin mode) w)
      end
  end.

(** gpio/mod.rs 244-255. *)
Definition gpio_clear_exec (w : W) : option (W * res call_failure (option cdatum)) :=
  if length args_pos =? 0 then Some (ask_chip ClearPins w)
  else
    match parse_pin 0 with
    | None => None
    | Some (Err e) => Some (w, Err e)
    | Some (Ok pin) => Some (ask_chip (ClearPin pin) w)
    end.

(** gpio/mod.rs 296-302. *)
Definition gpio_read_exec (w : W) : option (W * res call_failure (option cdatum)) :=
  match parse_pin 0 with
  | None => None
  | Some (Err e) => Some (w, Err e)
  | Some (Ok pin) => Some (ask_chip (ReadPin pin) w)
  end.

(** gpio/mod.rs 351-358. *)
Definition gpio_write_exec (w : W) : option (W * res call_failure (option cdatum)) :=
  match parse_pin 0 with
  | None => None
  | Some (Err e) => Some (w, Err e)
  | Some (Ok pin) => Some (ask_chip (WritePin pin (negb (N.eqb (arg 1) 0))) w)
  end.
End Scope.

(** gpio/mod.rs 149-184, 211-236, 265-288, 311-343 and 472-475: the declarations. *)
Definition pin_arg (sep : argsep_syntax) : singular_syntax := RequiredValue (u "pin") TInteger sep.
Definition gpio_provided : list (provided W) :=
  [ mkProvided (u "GPIO_CLEAR") (mkMd (u "GPIO_CLEAR") None false [mkSyntax [] None; mkSyntax [pin_arg SepEndOnly] None] false)
      (fun arg text_of pos => gpio_clear_exec arg pos);
    mkProvided (u "GPIO_READ") (mkMd (u "GPIO_READ") (Some TBoolean) false [mkSyntax [pin_arg SepEndOnly] None] false)
      (fun arg text_of pos => gpio_read_exec arg pos);
    mkProvided (u "GPIO_SETUP")
      (mkMd (u "GPIO_SETUP") None false [mkSyntax [pin_arg (SepExactly SepLong); RequiredValue (u "mode") TText SepEndOnly] None] false)
      gpio_setup_exec;
    mkProvided (u "GPIO_WRITE")
      (mkMd (u "GPIO_WRITE") None false [mkSyntax [pin_arg (SepExactly SepLong); RequiredValue (u "value") TBoolean SepEndOnly] None] false)
      (fun arg text_of pos => gpio_write_exec arg pos) ].
End Commands.

(** ** The mock chip *)

(** gpio/fakes.rs 87-96. *)
Record mock := mkMock { mk_reads : list (N * bool); mk_trace : list Z }.
Definition mock_new : mock := mkMock [] [].

(** gpio/fakes.rs 59-81: [encode], with [MockOp] as an integer. *)
Definition mock_encode (pin : N) (op : Z) : Z := (Z.of_N pin * 100 + op)%Z.
Definition mock_push (datum : Z) (p : mock) : mock := mkMock (mk_reads p) (mk_trace p ++ [datum]).

(** gpio/fakes.rs 119-162. *)
Definition mock_perform (op : pin_op) (p : mock) : mock * res ustr bool :=
  match op with
  | SetupPin pin mode =>
      (mock_push (mock_encode pin (match mode with ModeIn => 1 | ModeInPullDown => 2 | ModeInPullUp => 3 | ModeOut => 4 end)%Z) p, Ok true)
  | ClearPin pin => (mock_push (mock_encode pin 5) p, Ok true)
  | ClearPins => (mock_push (-1) p, Ok true)
  | ReadPin pin =>
      match mk_reads p with
      | (read_pin, high) :: reads =>
          let p := mkMock reads (mk_trace p) in
          if (read_pin =? pin)%N then (mock_push (mock_encode pin (if high then 11 else 10)%Z) p, Ok high)
          else (p, Err (u "Want to read pin " ++ to_string (Z.of_N pin) ++ u " but next mock read is for pin " ++ to_string (Z.of_N read_pin)))
      | [] => (p, Err (u "No mock read available for pin " ++ to_string (Z.of_N pin)))
      end
  | WritePin pin v => (mock_push (mock_encode pin (if v then 21 else 20)%Z) p, Ok true)
  end.

(** gpio/fakes.rs 100-102. *)
Definition mock_inject (pin : N) (high : bool) (p : mock) : mock := mkMock (mk_reads p ++ [(pin, high)]) (mk_trace p).

(** gpio/mod.rs 459. *)
Fixpoint join_words (l : list ustr) : ustr :=
  match l with
  | [] => []
  | [x] => x
  | x :: r => x ++ u " " ++ join_words r
  end.
Definition mock_trace_text (p : mock) : ustr := join_words (map to_string (mk_trace p)).

(** gpio/mod.rs 408-420: [GPIO_MOCK_INJECT]. *)
Definition mock_inject_exec (arg : nat -> N) (args_pos : list linecol) (p : mock) : option (mock * res call_failure (option cdatum)) :=
  match parse_pin arg args_pos 0 with
  | None => None
  | Some (Err e) => Some (p, Err e)
  | Some (Ok pin) => Some (mock_inject pin (negb (N.eqb (arg 1) 0)) p, Ok None)
  end.

(** gpio/mod.rs 371-400, 433-446 and 454-476: all of them with the mock chip; the world is the
    chip. *)
Definition mock_provided : list (provided mock) :=
  [ mkProvided (u "GPIO_MOCK_INJECT")
      (mkMd (u "GPIO_MOCK_INJECT") None false [mkSyntax [pin_arg (SepExactly SepLong); RequiredValue (u "high") TBoolean SepEndOnly] None] false)
      (fun arg text_of pos => mock_inject_exec arg pos);
    mkProvided (u "GPIO_MOCK_TRACE") (mkMd (u "GPIO_MOCK_TRACE") (Some TText) false [mkSyntax [] None] false)
      (fun arg text_of pos p => Some (p, Ok (Some (CText (mock_trace_text p))))) ] ++ gpio_provided mock_perform.
