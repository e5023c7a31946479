(** READ and RESTORE (std/src/data.rs). *)
From Verif Require Import Base Bytecode_Model Mem_Model Num_Model.

Inductive read_error :=
| RdOutOfData (arg : nat)
| RdConversion (arg : nat)
| RdMismatch (arg : nat) (source target : etype).

(** data.rs 111-149: the value stored in a variable of type [target]. *)
Definition assign_datum (arg : nat) (target : etype) (d : cdatum) : res read_error cdatum :=
  match target, d with
  | TBoolean, CBool b => Ok (CBool b)
  | TDouble, CDouble x => Ok (CDouble x)
  | TDouble, CInt i => Ok (CDouble (f64_of_i32 i))
  | TInteger, CDouble x =>
      match double_to_integer x with Some i => Ok (CInt i) | None => Err (RdConversion arg) end
  | TInteger, CInt i => Ok (CInt i)
  | TText, CText s => Ok (CText s)
  | _, _ => Err (RdMismatch arg (cdatum_etype d) target)
  end.

(** data.rs 167-172. *)
Definition default_datum (t : etype) : cdatum :=
  match t with TBoolean => CBool false | TDouble => CDouble 0 | TInteger => CInt 0 | TText => CText [] end.

(** data.rs 151-183: the loop over the variables of one READ, with the shared index.  Gives the
    values assigned (one per variable, in order, until the first error), the new index and the
    error.  Failing to allocate a string is left out. *)
Fixpoint read_loop (data : list (option cdatum)) (arg : nat) (index : nat) (targets : list etype)
  : list cdatum * nat * option read_error :=
  match targets with
  | [] => ([], index, None)
  | vtype :: rest =>
      match nth_error data index with
      | None => ([], index, Some (RdOutOfData arg))
      | Some od =>
          let datum := match od with Some d => d | None => default_datum vtype end in
          let index := S index in
          match assign_datum arg vtype datum with
          | Err e => ([], index, Some e)
          | Ok v =>
              match read_loop data (S arg) index rest with
              | (vs, i, e) => (v :: vs, i, e)
              end
          end
      end
  end.
Definition exec_read (data : list (option cdatum)) (index : nat) (targets : list etype) :=
  read_loop data 0 index targets.

(** data.rs 216-220, and [ClearableIndex]. *)
Definition exec_restore : nat := 0.
