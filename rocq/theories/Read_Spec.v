(** What [DATA], [READ] and [RESTORE] do in programs. *)
From Coq Require Import String.
From Verif Require Import Base Bytecode_Model Mem_Model Num_Model Vm_Model Ast_Model Data_Spec Call_Spec Exec_Spec.
Local Open Scope string_scope.
Local Open Scope list_scope.
Local Open Scope nat_scope.

(** The items of all the [DATA] of a program in the order in which they are written, wherever they
    are. *)
Fixpoint items (s : stmt) : list (option expr) :=
  match s with
  | StData l => l
  | StCallable _ _ _ body _ | StDo _ body | StFor _ _ _ _ _ _ body | StWhile _ body => flat_map items body
  | StIf branches => flat_map (fun b => match b with (_, body) => flat_map items body end) branches
  | StSelect _ cases _ => flat_map (fun c => match c with (_, body) => flat_map items body end) cases
  | _ => []
  end.
Definition all_items (p : list stmt) : list (option expr) := flat_map items p.

(** The value of an item: the literal, or nothing for one that is left out. *)
Inductive item_is : option expr -> option cdatum -> Prop :=
| Item_missing : item_is None None
| Item_boolean b p : item_is (Some (EBoolean b p)) (Some (CBool b))
| Item_double d p : item_is (Some (EDouble d p)) (Some (CDouble d))
| Item_integer z p : item_is (Some (EInteger z p)) (Some (CInt z))
| Item_text t p : item_is (Some (EText t p)) (Some (CText t)).

Section Read.
Variable show_rounded : N -> ustr.

Definition kind_name (t : etype) : ustr :=
  match t with TBoolean => u "BOOLEAN" | TDouble => u "DOUBLE" | TInteger => u "INTEGER" | TText => u "STRING" end.

(** The message for a value that a variable does not take. *)
Definition misfit (t : etype) (d : cdatum) : ustr :=
  match t, d with
  | TInteger, CDouble x => u "Cannot cast " ++ show_rounded x ++ u " to integer due to overflow"
  | _, _ => u "Cannot assign value of type " ++ kind_name (cdatum_etype d) ++ u " to variable of type " ++ kind_name t
  end.

(** Reading the values [left] into variables, one after the other: the error, if any; the values
    that remain; and the variables after it. *)
Inductive read_into {W} : list (option cdatum) -> list (ustr * etype) -> env W -> option ustr -> list (option cdatum) -> env W -> Prop :=
| Into_done left s : read_into left [] s None left s
| Into_value d left k t vars s v e left' s' : accepts_value t d v ->
    read_into left vars (store s k (Scalar v)) e left' s' -> read_into (Some d :: left) ((k, t) :: vars) s e left' s'
| Into_default left k t vars s v e left' s' : Data_Spec.default_value t v ->
    read_into left vars (store s k (Scalar v)) e left' s' -> read_into (None :: left) ((k, t) :: vars) s e left' s'
| Into_nothing k t vars s : read_into [] ((k, t) :: vars) s (Some (u "Out of data")) [] s
| Into_misfit d left k t vars s : (forall v, ~ accepts_value t d v) ->
    read_into (Some d :: left) ((k, t) :: vars) s (Some (misfit t d)) left s.

(** What the command is given: variables, with commas in between. *)
Fixpoint references (vars : list (ustr * etype)) : list given :=
  match vars with
  | [] => []
  | [(k, t)] => [GTag (VPointer SepEnd); GRef k (Some t)]
  | (k, t) :: rest => [GTag (VPointer SepLong); GRef k (Some t)] ++ references rest
  end.

Context {W : Type}.
(** How many of the [data] were read so far is part of the world. *)
Variable index_of : W -> nat.
Variable at_index : nat -> W -> W.
Variable data : list (option cdatum).

(** The values are those after the ones read so far; those that it takes are read after it, the one
    that does not fit too.  (What the variables have after an error is not said.) *)
Definition read_does (gs : list given) (s : env W) (r : res vm_error (option cdatum)) (s' : env W) : Prop :=
  exists vars e left' s1, vars <> [] /\ gs = references vars /\
    let left := skipn (index_of (world s)) data in
    read_into left vars s e left' s1 /\
    let w' := at_index (index_of (world s) + (length left - length left')) (world s) in
    match e with
    | None => r = Ok None /\ s' = mkEnv (vals s1) w'
    | Some msg => r = Err (XUpcall msg) /\ s' = mkEnv (vals s) w'
    end.

(** With other commands and functions, which do what [others] says. *)
Variable others : ustr -> list given -> env W -> res vm_error (option cdatum) -> env W -> Prop.
Inductive data_calls : ustr -> list given -> env W -> res vm_error (option cdatum) -> env W -> Prop :=
| Calls_read gs s r s' : read_does gs s r s' -> data_calls (u "READ") gs s r s'
| Calls_restore s : data_calls (u "RESTORE") [] s (Ok None) (mkEnv (vals s) (at_index 0 (world s)))
| Calls_else k gs s r s' : k <> u "READ" -> k <> u "RESTORE" -> others k gs s r s' -> data_calls k gs s r s'.
End Read.

(** The arguments as they are written: names of variables with commas in between. *)
Inductive read_args : list argspan -> list varref -> Prop :=
| Args_last v p pos : read_args [(Some (ESymbol v p), SepEnd, pos)] [v]
| Args_comma v p pos args vs : read_args args vs -> read_args ((Some (ESymbol v p), SepLong, pos) :: args) (v :: vs).
