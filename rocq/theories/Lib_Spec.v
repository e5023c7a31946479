(** What functions and commands that are given values only are to do. *)
From Verif Require Import Base Bytecode_Model Mem_Model Num_Model Vm_Model Ast_Model Syms_Model Call_Spec Cmds_Model Cmds_Spec
  Lib_Model.

Section Lib.
Context {W : Type}.

(** What one of them does with what it is given: its value, if it is a function, or its error; and
    the world before and after it. *)
Definition doing : Type := ustr -> list given -> W -> res ustr (option cdatum) -> W -> Prop.

(** As calls of programs, which leave the variables alone. *)
Definition as_result (r : res ustr (option cdatum)) : res vm_error (option cdatum) :=
  match r with Ok v => Ok v | Err msg => Err (XUpcall msg) end.
Inductive value_calls (does : doing) (names : list ustr) (others : ustr -> list given -> env W -> res vm_error (option cdatum) -> env W -> Prop)
  : ustr -> list given -> env W -> res vm_error (option cdatum) -> env W -> Prop :=
| Calls_does k gs s r w' : does k gs (world s) r w' -> value_calls does names others k gs s (as_result r) (mkEnv (vals s) w')
| Calls_not k gs s r s' : ~ In k names -> others k gs s r s' -> value_calls does names others k gs s r s'.

(** Values of the type that is declared. *)
Definition declares (md : callable_md) (v : option cdatum) : Prop :=
  match md_return md, v with
  | Some t, Some d => cdatum_etype d = t /\ (forall z, d = CInt z -> in_i32 z)
  | None, None => True
  | _, _ => False
  end.
Definition said (r : res call_failure (option cdatum)) : res ustr (option cdatum) :=
  match r with Ok v => Ok v | Err (_, msg) => Err msg end.
Definition only_values (gs : list given) : Prop := forall k t, ~ In (GRef k t) gs.

(** The [provided] ones do what [does] says. *)
Definition provides (ps : list (provided W)) (does : doing) : Prop :=
  forall k gs w r w', does k gs w r w' ->
    only_values gs /\
    exists p, find (fun p => ustr_eqb (pv_name p) k) ps = Some p /\
      (forall v, r = Ok v -> declares (pv_md p) v) /\
      forall arg text_of pos, given_from arg text_of 0 gs -> length pos = length gs ->
        exists r', pv_exec p arg text_of pos w = Some (w', r') /\ said r' = r.
End Lib.
Arguments doing : clear implicits.
