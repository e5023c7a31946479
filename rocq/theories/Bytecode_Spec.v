(** Specification vocabulary for the instruction encoding. *)
From Verif Require Import Base Bytecode_Model.
Local Open Scope N_scope.

(** Operands an instruction may carry: registers are [u8], indices and targets [u16]. *)
Definition in_range (i : instr) : Prop :=
  match i with
  | I3 _ a b c => a < 256 /\ b < 256 /\ c < 256
  | I1 _ a => a < 256
  | IAlloc r _ => r < 256
  | IAllocArray r p f => r < 256 /\ p < 256 /\ f < 256
  | ICall r t | IJumpIfFalse r t | ILoadConstant r t | ILoadInteger r t => r < 256 /\ t < 65536
  | IGosub t | IJump t => t < 65536
  | ILoadRegPtr d _ r => d < 256 /\ r < 256
  | IMove d s => d < 256 /\ s < 256
  | ISetErrorHandler _ t => t < 65536
  | IUpcall i r | IUpcallAsync i r => i < 65536 /\ r < 256
  | INop | IReturn | IEof => True
  end.


(** The absolute slot of the register file that a register number designates when the
    current frame starts at [fp]: numbers below 64 are globals, the rest are frame relative. *)
Definition absolute_slot (reg fp : N) : N := if reg <? 64 then reg else fp + (reg - 64).
