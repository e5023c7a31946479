(** What the GPIO commands and functions are to do. *)
From Coq Require Import String.
From Verif Require Import Base Bytecode_Model Mem_Model Num_Model Vm_Model Ast_Model Call_Spec Strings_Spec Cmds_Spec Gpio_Model Lib_Spec.
Local Open Scope string_scope.
Local Open Scope list_scope.

(** Pins are numbers from 0 to 255. *)
Definition is_pin (z : Z) : Prop := (0 <= z <= 255)%Z.
Inductive bad_pin (z : Z) : ustr -> Prop :=
| Pin_negative d : (z < 0)%Z -> numeral z d -> bad_pin z (u "Pin number -" ++ d ++ u " must be positive")
| Pin_large d : (255 < z)%Z -> numeral z d -> bad_pin z (u "Pin number " ++ d ++ u " is too large").

(** Modes have names, in any case. *)
Definition mode_text (m : pin_mode) : ustr :=
  match m with
  | ModeIn => u "IN"
  | ModeInPullDown => u "IN-PULL-DOWN"
  | ModeInPullUp => u "IN-PULL-UP"
  | ModeOut => u "OUT"
  end.
Definition names_mode (t : ustr) (m : pin_mode) : Prop := ascii_upper t = mode_text m.

(** What each one asks the chip for, or the message if it does not. *)
Inductive asks_chip : ustr -> list given -> res ustr pin_op -> Prop :=
| Asks_setup z t m : is_pin z -> names_mode t m ->
    asks_chip (u "GPIO_SETUP") [GValue (CInt z); GValue (CText t)] (Ok (SetupPin (Z.to_N z) m))
| Asks_mode z t : is_pin z -> (forall m, ~ names_mode t m) ->
    asks_chip (u "GPIO_SETUP") [GValue (CInt z); GValue (CText t)] (Err (u "Unknown pin mode " ++ ascii_upper t))
| Asks_setup_pin z t msg : bad_pin z msg -> asks_chip (u "GPIO_SETUP") [GValue (CInt z); GValue (CText t)] (Err msg)
| Asks_clear_all : asks_chip (u "GPIO_CLEAR") [] (Ok ClearPins)
| Asks_clear z : is_pin z -> asks_chip (u "GPIO_CLEAR") [GValue (CInt z)] (Ok (ClearPin (Z.to_N z)))
| Asks_clear_pin z msg : bad_pin z msg -> asks_chip (u "GPIO_CLEAR") [GValue (CInt z)] (Err msg)
| Asks_read z : is_pin z -> asks_chip (u "GPIO_READ") [GValue (CInt z)] (Ok (ReadPin (Z.to_N z)))
| Asks_read_pin z msg : bad_pin z msg -> asks_chip (u "GPIO_READ") [GValue (CInt z)] (Err msg)
| Asks_write z b : is_pin z -> asks_chip (u "GPIO_WRITE") [GValue (CInt z); GValue (CBool b)] (Ok (WritePin (Z.to_N z) b))
| Asks_write_pin z b msg : bad_pin z msg -> asks_chip (u "GPIO_WRITE") [GValue (CInt z); GValue (CBool b)] (Err msg).

(** Only reads have a value, which is the level of the pin. *)
Definition is_read (op : pin_op) : Prop := exists pin, op = ReadPin pin.
Inductive answered (op : pin_op) : res ustr bool -> res ustr (option cdatum) -> Prop :=
| Answered_level b : is_read op -> answered op (Ok b) (Ok (Some (CBool b)))
| Answered_done b : ~ is_read op -> answered op (Ok b) (Ok None)
| Answered_error msg : answered op (Err msg) (Err msg).

(** The chip is asked once, or not at all if there is a mistake in the arguments. *)
Definition gpio_does {W} (perform : pin_op -> W -> W * res ustr bool) : doing W :=
  fun k gs w r w' =>
    (exists op a, asks_chip k gs (Ok op) /\ perform op w = (w', a) /\ answered op a r) \/
    (exists msg, asks_chip k gs (Err msg) /\ r = Err msg /\ w' = w).

(** ** The mock chip *)

(** The mock is given the levels that reads will find, and tells what was done to it. *)
Inductive mock_does : doing mock :=
| Mock_inject z b p : is_pin z ->
    mock_does (u "GPIO_MOCK_INJECT") [GValue (CInt z); GValue (CBool b)] p (Ok None) (mkMock (mk_reads p ++ [(Z.to_N z, b)]) (mk_trace p))
| Mock_inject_pin z b msg p : bad_pin z msg ->
    mock_does (u "GPIO_MOCK_INJECT") [GValue (CInt z); GValue (CBool b)] p (Err msg) p
| Mock_trace p : mock_does (u "GPIO_MOCK_TRACE") [] p (Ok (Some (CText (mock_trace_text p)))) p
| Mock_chip k gs p r p' : gpio_does mock_perform k gs p r p' -> mock_does k gs p r p'.

(** What was done: operations, and the levels of those that are reads. *)
Inductive deed := Deed (op : pin_op) | DeedRead (pin : N) (high : bool).

(** A number of the trace is the pin times 100 plus what was done to it, or -1. *)
Definition deed_of (z : Z) : option deed :=
  if (z =? -1)%Z then Some (Deed ClearPins)
  else
    let pin := Z.to_N (z / 100) in
    match (z mod 100)%Z with
    | 1 => Some (Deed (SetupPin pin ModeIn))
    | 2 => Some (Deed (SetupPin pin ModeInPullDown))
    | 3 => Some (Deed (SetupPin pin ModeInPullUp))
    | 4 => Some (Deed (SetupPin pin ModeOut))
    | 5 => Some (Deed (ClearPin pin))
    | 10 => Some (DeedRead pin false)
    | 11 => Some (DeedRead pin true)
    | 20 => Some (Deed (WritePin pin false))
    | 21 => Some (Deed (WritePin pin true))
    | _ => None
    end%Z.

(** The operations that a mock got, with the reads injected in between, and those that did not
    fail. *)
Inductive history : mock -> list deed -> Prop :=
| History_new : history mock_new []
| History_inject p l pin b : history p l -> history (mock_inject pin b p) l
| History_done p l op p' b : history p l -> mock_perform op p = (p', Ok b) ->
    history p' (l ++ [match op with ReadPin pin => DeedRead pin b | _ => Deed op end])
| History_failed p l op p' msg : history p l -> mock_perform op p = (p', Err msg) -> history p' l.
