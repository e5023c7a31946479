(** The [READ] and [RESTORE] commands as the machine calls them: /repo/std/src/data.rs 102-229.  See
    Data_Model for what they do to values. *)
From Coq Require Import String.
From Verif Require Import Base Bytecode_Model Mem_Model Vm_Model Ast_Model Data_Model Host_Model Input_Model.
Local Open Scope string_scope.
Local Open Scope list_scope.
Local Open Scope nat_scope.

(** data.rs 42-58: both functions. *)
Definition type_name (t : etype) : ustr :=
  match t with TBoolean => u "BOOLEAN" | TDouble => u "DOUBLE" | TInteger => u "INTEGER" | TText => u "STRING" end.

Section Read.
(** What [format!] makes of a double, given its bits, after rounding: numerics.rs 37-44. *)
Variable show_rounded : N -> ustr.

(** data.rs 126-147 and 162-165: the messages of errors. *)
Definition read_message (d : cdatum) (e : read_error) : ustr :=
  match e with
  | RdOutOfData _ => u "Out of data"
  | RdConversion _ =>
      u "Cannot cast " ++ match d with CDouble x => show_rounded x | _ => [] end ++ u " to integer due to overflow"
  | RdMismatch _ source target =>
      u "Cannot assign value of type " ++ type_name source ++ u " to variable of type " ++ type_name target
  end.

(** data.rs 151-183: the registers, the heap, the index and the error that the loop leaves.  An
    error has the argument whose position it reports, except when memory runs out.  The code ends
    the loop at the last separator alone; here [fuel], the number of arguments, bounds it too, and
    [None] is then one of the panics.  Numbers of arguments are [u8] in the code; they cannot
    overflow because a frame has fewer registers. *)
Fixpoint read_vars (fuel : nat) (img : image) (first : N) (reg index : nat) (c : ctx) (h : heap)
  : option (list N * heap * nat * option (option nat * ustr)) :=
  match fuel with
  | O => None
  | S fuel' =>
      match vararg_parse (scope_get c first reg) with
      | Some (VPointer sep) =>
          let reg := S reg in
          match tagged_ref_parse (scope_get c first reg) with
          | None => None
          | Some (target, vtype) =>
              match nth_error (i_data img) index with
              | None => Some (c_regs c, h, index, Some (Some reg, u "Out of data"))
              | Some od =>
                  let datum := match od with Some d => d | None => default_datum vtype end in
                  let index := S index in
                  match assign_datum reg vtype datum with
                  | Err e => Some (c_regs c, h, index, Some (Some reg, read_message datum e))
                  | Ok v =>
                      match encode h v with
                      | None => Some (c_regs c, h, index, Some (None, u "Out of heap space"))
                      | Some (h, raw) =>
                          if N.to_nat target <? length (c_regs c) then
                            let c := set_regs c (upd (c_regs c) (N.to_nat target) raw) in
                            match sep with
                            | SepEnd => Some (c_regs c, h, index, None)
                            | _ => read_vars fuel' img first (S reg) index c h
                            end
                          else None
                      end
                  end
              end
          end
      | _ => None
      end
  end.

Context {W : Type}.
(** The index that both commands share is part of the world: data.rs 61-64, 188-191 and 224-228. *)
Variable index_of : W -> nat.
Variable at_index : nat -> W -> W.

(** data.rs 108-184; callable.rs 923-929 for the positions. *)
Definition read_exec (img : image) (pc : nat) (first : N) (c : ctx) (h : heap) (w : W) : option (upcall_result W) :=
  let args := match nth_error (i_meta img) pc with Some m => m_args m | None => [] end in
  match read_vars (length args) img first 0 (index_of w) c h with
  | None => None
  | Some (regs, h, index, failure) =>
      Some (mkUpcall W regs h (at_index index w)
        (match failure with
         | None => None
         | Some (reg, msg) => Some (match reg with Some r => nth_error args r | None => None end, msg)
         end))
  end.

(** data.rs 216-220. *)
Definition restore_exec (c : ctx) (h : heap) (w : W) : option (upcall_result W) :=
  Some (mkUpcall W (c_regs c) h (at_index exec_restore w) None).

(** The other commands and functions. *)
Variable other : N -> N -> nat -> image -> ctx -> heap -> W -> option (upcall_result W).

(** vm/mod.rs 310-332. *)
Definition data_host (ups : list ustr) (idx first : N) (pc : nat) (img : image) (c : ctx) (h : heap) (w : W)
  : option (upcall_result W) :=
  match nth_error ups (N.to_nat idx) with
  | None => None
  | Some k =>
      if ustr_eqb k (u "READ") then read_exec img pc first c h w
      else if ustr_eqb k (u "RESTORE") then restore_exec c h w
      else other idx first pc img c h w
  end.
End Read.

(** data.rs 70-80 and 197-198: the declarations. *)
Definition read_repeated : repeated_syntax := mkRepeated (u "vref") RepRef (SepExactly SepLong) true false.
Definition read_md : callable_md := mkMd (u "READ") None false [mkSyntax [] (Some read_repeated)] false.
Definition restore_md : callable_md := mkMd (u "RESTORE") None false [mkSyntax [] None] false.
