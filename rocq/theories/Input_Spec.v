(** What [INPUT] should do. *)
From Coq Require Import String.
From Verif Require Import Base Bytecode_Model Mem_Model Num_Model Vm_Model Vm_Spec Ast_Model Strings_Model Strings_Spec
  Eval_Spec Call_Spec Exec_Spec Cmds_Model Input_Model.
Local Open Scope string_scope.
Local Open Scope list_scope.
Local Open Scope nat_scope.

(** [s] without the white space at its end. *)
Definition without_end (s t : ustr) : Prop := exists blank, s = t ++ blank /\ spaces blank /\ no_space_last t.

Section Input.
Variable uc : N -> list N.
Variable parse_f64 : ustr -> option N.

(** The value that a variable of type [t] gets from a text. *)
Inductive meant : etype -> ustr -> cdatum -> Prop :=
| Means_yes s : In (flat_map uc s) [u "TRUE"; u "YES"; u "Y"] -> meant TBoolean s (CBool true)
| Means_no s : In (flat_map uc s) [u "FALSE"; u "NO"; u "N"] -> meant TBoolean s (CBool false)
| Means_double s x : parse_f64 s = Some x -> meant TDouble s (CDouble x)
| Means_integer s z : denotes_integer s z -> in_i32 z -> meant TInteger s (CInt z)
| Means_text s : meant TText s (CText s).

Definition kind (t : etype) : ustr :=
  match t with
  | TBoolean => u "boolean"
  | TDouble => u "double-precision floating point"
  | TInteger => u "integer"
  | TText => u "string"
  end.
Definition meaningless (t : etype) (s : ustr) (msg : ustr) : Prop :=
  (forall d, ~ meant t s d) /\ msg = u "Invalid " ++ kind t ++ u " literal " ++ s.

Context {W : Type}.
Variable read_line : ustr -> ustr -> W -> W * line_read.
Variable perform : con_op -> W -> W * option ustr.

(** Lines are read, each with the prompt, until there is one with a value.  The first one starts
    empty, and the next ones with the last line that had no value.  What was wrong is printed in
    between.  [asks n … r w'] is that [n] lines are read, after which [r] is the result. *)
Inductive asks (t : etype) (prompt : ustr) : nat -> ustr -> W -> res ustr cdatum -> W -> Prop :=
| Asks_value before w line w' s d : read_line prompt before w = (w', ReadLine line) -> without_end line s -> meant t s d ->
    asks t prompt 1 before w (Ok d) w'
| Asks_again n before w line w1 s msg w2 r w' : read_line prompt before w = (w1, ReadLine line) -> without_end line s ->
    meaningless t s msg -> perform (OpPrint (u "Retry input: " ++ msg)) w1 = (w2, None) ->
    asks t prompt n line w2 r w' -> asks t prompt (S n) before w r w'
| Asks_invalid n before w msg w1 w2 r w' : read_line prompt before w = (w1, ReadInvalid msg) ->
    perform (OpPrint (u "Retry input: " ++ msg)) w1 = (w2, None) ->
    asks t prompt n before w2 r w' -> asks t prompt (S n) before w r w'
| Asks_fails before w msg w' : read_line prompt before w = (w', ReadFailed msg) -> asks t prompt 1 before w (Err msg) w'
| Asks_mute before w line w1 s msg w' e : read_line prompt before w = (w1, ReadLine line) -> without_end line s ->
    meaningless t s msg -> perform (OpPrint (u "Retry input: " ++ msg)) w1 = (w', Some e) ->
    asks t prompt 1 before w (Err e) w'
| Asks_invalid_mute before w msg w1 w' e : read_line prompt before w = (w1, ReadInvalid msg) ->
    perform (OpPrint (u "Retry input: " ++ msg)) w1 = (w', Some e) ->
    asks t prompt 1 before w (Err e) w'.

(** [INPUT v], [INPUT , v], [INPUT ; v], [INPUT p, v] and [INPUT p; v]: what they are given before
    the variable, and the prompt. *)
Inductive prompts : list given -> ustr -> Prop :=
| Prompt_none : prompts [] []
| Prompt_long : prompts [GTag (VMissing SepLong)] []
| Prompt_short : prompts [GTag (VMissing SepShort)] (u "? ")
| Prompt_text_long p : prompts [GTag (VImmediate SepLong TText); GValue (CText p)] p
| Prompt_text_short p : prompts [GTag (VImmediate SepShort TText); GValue (CText p)] (p ++ u "? ").

(** The variable gets the value; and nothing if there is none.  At most [attempts] lines. *)
Variable attempts : nat.
Definition inputs (gs : list given) (s : env W) (r : res vm_error (option cdatum)) (s' : env W) : Prop :=
  exists given prompt k t n a w', gs = given ++ [GRef k (Some t)] /\ prompts given prompt /\
    asks t prompt n [] (world s) a w' /\ n <= attempts /\
    match a with
    | Ok d => r = Ok None /\ s' = store (mkEnv (vals s) w') k (Scalar d)
    | Err msg => r = Err (XUpcall msg) /\ s' = mkEnv (vals s) w'
    end.

(** With other commands and functions, which do what [others] says. *)
Variable others : ustr -> list given -> env W -> res vm_error (option cdatum) -> env W -> Prop.
Inductive input_calls : ustr -> list given -> env W -> res vm_error (option cdatum) -> env W -> Prop :=
| Calls_input gs s r s' : inputs gs s r s' -> input_calls (u "INPUT") gs s r s'
| Calls_other k gs s r s' : k <> u "INPUT" -> others k gs s r s' -> input_calls k gs s r s'.
End Input.

(** The arguments of the command, as they are written: what is given for the prompt, and the
    variable. *)
Inductive input_args powf {W} (callable : ustr -> option callable_md) (variable : ustr -> bool)
    (calls : ustr -> list given -> env W -> res vm_error (option cdatum) -> env W -> Prop) (s : env W)
  : list argspan -> list given -> varref -> env W -> Prop :=
| Args_variable v p pos : input_args powf callable variable calls s [(Some (ESymbol v p), SepEnd, pos)] [] v s
| Args_nothing sep pos1 v p pos : input_args powf callable variable calls s
    [(None, sep, pos1); (Some (ESymbol v p), SepEnd, pos)] [GTag (VMissing sep)] v s
| Args_prompt e sep pos1 v p pos t s1 : evals powf callable variable calls s e (Ok (CText t)) s1 ->
    input_args powf callable variable calls s [(Some e, sep, pos1); (Some (ESymbol v p), SepEnd, pos)]
      [GTag (VImmediate sep TText); GValue (CText t)] v s1.
