(** How names and registers should behave, from the history of definitions only. *)
From Verif Require Import Base Bytecode_Model Ast_Model Syms_Model.

(** Names are the same when they differ at most in ASCII case. *)
Definition same_name (a b : ustr) : Prop := ascii_lower a = ascii_lower b.
Definition same_name_dec (a b : ustr) : {same_name a b} + {~ same_name a b} :=
  ustr_dec (ascii_lower a) (ascii_lower b).

(** The definition of [name] among [defs] and its position. *)
Fixpoint find_def (defs : list (ustr * proto)) (name : ustr) : option (nat * proto) :=
  match defs with
  | [] => None
  | (n, p) :: r =>
      if same_name_dec n name then Some (0, p)
      else match find_def r name with Some (i, q) => Some (S i, q) | None => None end
  end.

(** No name is defined twice. *)
Definition names_distinct (defs : list (ustr * proto)) : Prop :=
  forall i j a b, nth_error defs i = Some a -> nth_error defs j = Some b ->
    same_name (fst a) (fst b) -> i = j.

(** A reference without suffix fits anything; with a suffix, only that type. *)
Definition suffix_ok (v : varref) (p : proto) : bool :=
  match vr_type v with
  | None => true
  | Some t => if etype_dec t (match p with PArray s _ => s | PScalar s => s end) then true else false
  end.

(** What a reference means: the local of that name, else the global of that name.  Locals are
    registers 64, 65, ... and globals 0, 1, ..., in order of definition. *)
Definition resolve (locals globals : list (ustr * proto)) (v : varref) : res sym_error (N * proto) :=
  match find_def locals (vr_name v) with
  | Some (i, p) => if suffix_ok v p then Ok ((64 + N.of_nat i)%N, p) else Err (SeIncompatible v)
  | None =>
      match find_def globals (vr_name v) with
      | Some (i, p) => if suffix_ok v p then Ok (N.of_nat i, p) else Err (SeIncompatible v)
      | None => Err (SeUndefined v ScGlobal)
      end
  end.

(** The symbol table after defining [locals] and [globals], all of which succeeded. *)
Inductive defined : list (ustr * proto) -> list (ustr * proto) -> lsyms -> Prop :=
| defined_none g : gs_vars g = [] -> defined [] [] (enter_scope g)
| defined_local ls gs l name p l' r : defined ls gs l ->
    put_local l (symkey name) p = Some (l', Ok r) -> defined (ls ++ [(name, p)]) gs l'
| defined_global ls gs l name p l' r : defined ls gs l ->
    ls_put_global l (symkey name) p = Some (l', Ok r) -> defined ls (gs ++ [(name, p)]) l'.

(** * Temporaries *)

(** What the compiler does with temporaries while it works on an expression: it opens nested
    scopes, takes temporaries in the innermost one, and closes it. *)
Inductive temp_op := OpenScope | TakeTemp | CloseScope.

(** The open scopes, innermost first, each with the registers it has taken. *)
Definition open_scopes := list (tscope * list N).

Inductive temp_run (l : lsyms) : list temp_op -> open_scopes -> tstate -> Prop :=
| run_start : temp_run l [] [] (frozen l)
| run_open ops o t s : temp_run l ops o t -> temp_scope l t = Some s ->
    temp_run l (ops ++ [OpenScope]) ((s, []) :: o) t
| run_take ops s regs o t r s' t' : temp_run l ops ((s, regs) :: o) t ->
    scope_alloc s t = Ok (r, s', t') ->
    temp_run l (ops ++ [TakeTemp]) ((s', regs ++ [r]) :: o) t'
| run_close ops s regs o t : temp_run l ops ((s, regs) :: o) t ->
    temp_run l (ops ++ [CloseScope]) o (scope_drop s t).

(** All the temporaries in use, in order of allocation. *)
Definition live_temps (o : open_scopes) : list N := concat (rev (map snd o)).
