(** How functions and commands that the host provides see the machine. *)
From Verif Require Import Base Bytecode_Model Mem_Model Vm_Model Vm_Spec.

(** callable.rs 909-942 and vm/context.rs 356-379: the scope of a call starts at register
    [first], which is where the value of a function goes; its arguments follow.  Those of a
    command start at [first]. *)
Definition scope_get (c : ctx) (first : N) (k : nat) : N := slot c (reg_index c first + k).

(** callable.rs 1012-1042: [return_boolean], [return_double], [return_integer] and
    [return_string] store into the vector of registers at the start of the scope, which panics if
    it has fewer.  [None] is the panic. *)
Definition scope_return (c : ctx) (first v : N) : option (list N) :=
  if reg_index c first <? length (c_regs c) then Some (upd (c_regs c) (reg_index c first) v) else None.
