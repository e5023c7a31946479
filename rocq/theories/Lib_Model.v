(** Functions and commands of the standard library that are given values only. *)
From Coq Require Import String.
From Verif Require Import Base Bytecode_Model Mem_Model Vm_Model Ast_Model Syms_Model Host_Model Cmds_Model Input_Model.
Local Open Scope string_scope.
Local Open Scope list_scope.
Local Open Scope nat_scope.

Section Lib.
Context {W : Type}.

(** callable.rs 1053-1072: a [Callable], with its declaration and what it does: from its argument
    slots, the texts they point to and the positions of the arguments, to the world after it and
    its value, if any, or its error.  [None] is a panic. *)
Record provided := mkProvided {
  pv_name : ustr;
  pv_md : callable_md;
  pv_exec : (nat -> N) -> (N -> option ustr) -> list linecol -> W -> option (W * res call_failure (option cdatum)) }.

(** vm/context.rs 356-379: the arguments of a function come after the register of its value. *)
Definition arg_offset (md : callable_md) : nat := match md_return md with Some _ => 1 | None => 0 end.

(** callable.rs 1012-1042: what [return_boolean] and so on leave. *)
Definition leave_value (first : N) (c : ctx) (h : heap) (w : W) (d : cdatum) : option (upcall_result W) :=
  match encode h d with
  | None => Some (mkUpcall W (c_regs c) h w (Some (None, u "Out of heap space")))
  | Some (h, raw) =>
      match scope_return c first raw with
      | Some regs => Some (mkUpcall W regs h w None)
      | None => None
      end
  end.

(** vm/mod.rs 310-332: the call of one of them. *)
Definition provided_exec (p : provided) (first : N) (pc : nat) (img : image) (c : ctx) (h : heap) (w : W)
  : option (upcall_result W) :=
  let arg k := scope_get c first (arg_offset (pv_md p) + k) in
  let text_of raw := deref_text raw (i_constants img) h in
  let args_pos := match nth_error (i_meta img) pc with Some m => m_args m | None => [] end in
  match pv_exec p arg text_of args_pos w with
  | None => None
  | Some (w, Err f) => Some (mkUpcall W (c_regs c) h w (Some f))
  | Some (w, Ok None) => Some (mkUpcall W (c_regs c) h w None)
  | Some (w, Ok (Some d)) => leave_value first c h w d
  end.

Variable ps : list provided.

(** The other commands and functions. *)
Variable other : N -> N -> nat -> image -> ctx -> heap -> W -> option (upcall_result W).

(** vm/mod.rs 310-332. *)
Definition lib_host (ups : list ustr) (idx first : N) (pc : nat) (img : image) (c : ctx) (h : heap) (w : W)
  : option (upcall_result W) :=
  match nth_error ups (N.to_nat idx) with
  | None => None
  | Some k =>
      match find (fun p => ustr_eqb (pv_name p) k) ps with
      | Some p => provided_exec p first pc img c h w
      | None => other idx first pc img c h w
      end
  end.

Definition lib_upcalls : list (ustr * callable_md) := map (fun p => (pv_name p, pv_md p)) ps.
End Lib.
Arguments provided : clear implicits.
Arguments mkProvided {W}.
