(** What the user is promised about the stored program. *)
From Coq Require Import String.
From Verif Require Import Base Text_Model Storage_Model Storage_Spec Readline_Model Editor_Model Repl_Model.
Local Open Scope string_scope.
Local Open Scope N_scope.
Local Open Scope list_scope.

Section Case.
Variables uc lc : N -> list N.

(** An answer that agrees, in any case; all other answers do not. *)
Definition says_yes (a : ustr) : Prop := In (flat_map uc a) [u "Y"; u "YES"; u "TRUE"].

(** What is written on the console to ask. *)
Definition question (o : host) : list ustr :=
  [match e_name (o_program o) with
   | Some name => u "Current program " ++ name ++ u " has unsaved changes!"
   | None => u "Current program has unsaved changes and has never been saved!"
   end] ++ if o_interactive o then [u "Discard and continue (y/N)? "] else [].

(** The user let go of the program of [o], with [o'] the state that follows: it had no changes and
    nothing was asked, or the user was asked and agreed. *)
Definition consents (o o' : host) : Prop :=
  (e_dirty (o_program o) = false /\ o_input o' = o_input o /\ o_output o' = o_output o) \/
  (e_dirty (o_program o) = true /\ o_output o' = o_output o ++ question o /\
   exists a, says_yes a /\ o_input o = Ok a :: o_input o').

(** The next line does not agree: it says something else, or there is none. *)
Definition refuses (o : host) : Prop :=
  e_dirty (o_program o) = true /\ forall a rest, o_input o = Ok a :: rest -> ~ says_yes a.

(** The commands: those of the stored program, those of the storage, INPUT and PRINT; and the question
    before leaving the loop. *)
Inductive cmd :=
| CNew
| CLoad (pathname : ustr)
| CSave (name : option ustr)
| CRun
| CEdit (w h : nat) (keys : list key)
| CDisk (o : op)
| CInput (prompt : ustr)
| CPrint (s : ustr)
| CAsk.

(** [step c o r o']: in [o] the command [c] gives [o'], with an error if [r] has one. *)
Inductive step : cmd -> host -> res call_error unit -> host -> Prop :=
| S_new o r o' : new_command uc o = Some (o', r) -> step CNew o r o'
| S_load p o r o' : load_command uc p o = Some (o', r) -> step (CLoad p) o r o'
| S_save n o r o' : save_command uc n o = Some (o', r) -> step (CSave n) o r o'
| S_run o r o' : run_command o = Some (o', r) -> step CRun o r o'
| S_edit w h keys o r o' : edit_command w h keys o = Some (o', r) -> step (CEdit w h keys) o r o'
| S_disk d o st : op_ok d -> perform uc lc d (o_storage o) = Some (Ok st) -> step (CDisk d) o (Ok tt) (with_storage st o)
| S_disk_error d o e : perform uc lc d (o_storage o) = Some (Err e) -> step (CDisk d) o (Err (EIo e)) o
| S_input p o : step (CInput p) o (match snd (read_line p o) with Ok _ => Ok tt | Err e => Err (ELine e) end) (fst (read_line p o))
| S_print s o : step (CPrint s) o (Ok tt) (say s o)
| S_ask o : step CAsk o (Ok tt) (fst (continue_if_modified uc o)).

(** Any commands, one after another, whether or not they fail. *)
Inductive steps : list cmd -> host -> host -> Prop :=
| SS_none o : steps [] o o
| SS_more c cs o r o' o'' : step c o r o' -> steps cs o' o'' -> steps (c :: cs) o o''.

(** The user edited the program, any number of times, into another. *)
Inductive edited : editor -> editor -> Prop :=
| E_none p : edited p p
| E_more p w h keys p' p'' : edit_program w h keys p = Some p' -> edited p' p'' -> edited p p''.

(** The lines of [o] up to where [o'] goes on, none of which agrees to anything. *)
Definition no_consent (o o' : host) : Prop :=
  exists read, o_input o = read ++ o_input o' /\ forall a, In (Ok a) read -> ~ says_yes a.

(** A file of the storage has the text of the program. *)
Definition saved (p : editor) (st : storage) : Prop := exists file, get uc file st = Some (Ok (collect (text p))).

(** The storage is one that can be, and the cursor of the program is on a line of it. *)
Definition ready (o : host) : Prop :=
  reachable uc lc (o_storage o) /\
  ((e_line (o_program o) < length (e_content (o_program o)))%nat \/
   (e_content (o_program o) = [] /\ e_line (o_program o) = 0%nat)).
End Case.
