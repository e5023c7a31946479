(** Symbol tables: core/src/compiler/syms.rs. *)
From Verif Require Import Base Bytecode_Model Vm_Model Ids_Model Ast_Model.
Local Open Scope N_scope.

(** bytecode.rs 135-160: [RegisterScope]. *)
Inductive reg_scope := ScGlobal | ScLocal | ScTemp.

(** syms.rs 33-49. *)
Inductive proto :=
| PArray (t : etype) (ndims : nat)
| PScalar (t : etype).

(** syms.rs 54-66. *)
Inductive sym_error :=
| SeAlreadyDefined (v : varref)
| SeIncompatible (v : varref)
| SeOutOfRegisters (s : reg_scope)
| SeUndefined (v : varref) (s : reg_scope).

(** syms.rs 75-81: [SymbolKey]. *)
Definition symkey (name : ustr) : ustr := ascii_upper name.

Definition symtab := @idmap ustr proto.

(** The number of values of the [u8] and [u16] identifier types. *)
Definition u8_ids : N := 256.
Definition u16_ids : N := 65536.

(** syms.rs 90-121. *)
Definition get_var (v : varref) (table : symtab) (mk : N -> option N) (s : reg_scope)
  : res sym_error (N * proto) :=
  match id_get ustr_eqb table (symkey (vr_name v)) with
  | Some (p, i) =>
      if accepts v (match p with PArray t _ => t | PScalar t => t end) then
        match mk i with
        | Some r => Ok (r, p)
        | None => Err (SeOutOfRegisters s)
        end
      else Err (SeIncompatible v)
  | None => Err (SeUndefined v s)
  end.

(** syms.rs 126-145; [None] is the [unreachable!]. *)
Definition put_var (key : ustr) (p : proto) (table : symtab) (mk : N -> option N) (s : reg_scope)
  : option (symtab * res sym_error N) :=
  match id_insert ustr_eqb u8_ids table key p with
  | Some (table', (None, i)) =>
      Some (table', match mk i with Some r => Ok r | None => Err (SeOutOfRegisters s) end)
  | Some (_, (Some _, _)) => None
  | None => Some (table, Err (SeOutOfRegisters s))
  end.

(** [HashMap] from names, for tables without identifiers. *)
Fixpoint assoc {A} (l : list (ustr * A)) (k : ustr) : option A :=
  match l with
  | [] => None
  | (k', v) :: r => if ustr_eqb k' k then Some v else assoc r k
  end.
Definition assoc_insert {A} (l : list (ustr * A)) (k : ustr) (v : A) : list (ustr * A) :=
  (k, v) :: filter (fun e => negb (ustr_eqb (fst e) k)) l.

(** syms.rs 151-160. *)
Record gsyms := mkGsyms {
  gs_vars : symtab;
  gs_upcalls : list (ustr * callable_md);
  gs_user : list (ustr * callable_md)
}.

(** syms.rs 164-190. *)
Definition gs_new (upcalls : list (ustr * callable_md)) : gsyms := mkGsyms id_empty upcalls [].
Definition get_global (g : gsyms) (v : varref) : res sym_error (N * proto) :=
  get_var v (gs_vars g) register_global ScGlobal.
Definition put_global (g : gsyms) (key : ustr) (p : proto) : option (gsyms * res sym_error N) :=
  match put_var key p (gs_vars g) register_global ScGlobal with
  | Some (t, r) => Some (mkGsyms t (gs_upcalls g) (gs_user g), r)
  | None => None
  end.
Definition contains_global (g : gsyms) (key : ustr) : bool :=
  match id_get ustr_eqb (gs_vars g) key with Some _ => true | None => false end.

(** syms.rs 200-215. *)
Definition declare_user (g : gsyms) (v : varref) (md : callable_md) : res sym_error gsyms :=
  let key := symkey (vr_name v) in
  if contains_global g key then Err (SeAlreadyDefined v)
  else
    let g' := mkGsyms (gs_vars g) (gs_upcalls g) (assoc_insert (gs_user g) key md) in
    match assoc (gs_user g) key with
    | Some prev => if md_dec prev md then Ok g' else Err (SeAlreadyDefined v)
    | None => Ok g'
    end.

(** syms.rs 218-220. *)
Definition get_callable (g : gsyms) (key : ustr) : option callable_md :=
  match assoc (gs_user g) key with
  | Some md => Some md
  | None => assoc (gs_upcalls g) key
  end.

(** syms.rs 241-255, 224-235: [LocalSymtable] and its snapshot, together with the global table
    it refers to. *)
Record lsyms := mkLsyms {
  ls_global : gsyms;
  ls_locals : symtab;
  ls_count_temps : N;
  ls_active_temps : N
}.

(** syms.rs 259-266. *)
Definition enter_scope (g : gsyms) : lsyms := mkLsyms g id_empty 0 0.

(** syms.rs 362-368. *)
Definition get_local_or_global (l : lsyms) (v : varref) : res sym_error (N * proto) :=
  match get_var v (ls_locals l) register_local ScLocal with
  | Err (SeUndefined _ _) => get_global (ls_global l) v
  | r => r
  end.

(** syms.rs 353-359, 376-388. *)
Definition put_local (l : lsyms) (key : ustr) (p : proto) : option (lsyms * res sym_error N) :=
  match put_var key p (ls_locals l) register_local ScLocal with
  | Some (t, r) => Some (mkLsyms (ls_global l) t (ls_count_temps l) (ls_active_temps l), r)
  | None => None
  end.
Definition ls_put_global (l : lsyms) (key : ustr) (p : proto) : option (lsyms * res sym_error N) :=
  match put_global (ls_global l) key p with
  | Some (g, r) => Some (mkLsyms g (ls_locals l) (ls_count_temps l) (ls_active_temps l), r)
  | None => None
  end.
Definition contains_local (l : lsyms) (key : ustr) : bool :=
  match id_get ustr_eqb (ls_locals l) key with Some _ => true | None => false end.

(** syms.rs 407-420. *)
Definition fixup_local_type (l : lsyms) (v : varref) (t : etype) : res sym_error lsyms :=
  let key := symkey (vr_name v) in
  match id_get ustr_eqb (ls_locals l) key with
  | Some (PScalar _, _) =>
      Ok (mkLsyms (ls_global l) (id_set ustr_eqb (ls_locals l) key (PScalar t))
            (ls_count_temps l) (ls_active_temps l))
  | _ => Err (SeUndefined v ScLocal)
  end.

(** * Temporaries *)

(** syms.rs 430-442: the counters of [TempSymtable]. *)
Record tstate := mkTstate { ts_next : N; ts_count : N }.

(** syms.rs 453-461, 307-309: [LocalSymtable::frozen]. *)
Definition frozen (l : lsyms) : tstate := mkTstate (ls_active_temps l) (ls_active_temps l).

(** syms.rs 444-449: dropping the [TempSymtable]. *)
Definition thaw (l : lsyms) (t : tstate) : lsyms :=
  mkLsyms (ls_global l) (ls_locals l) (N.max (ls_count_temps l) (ts_count t)) (ls_active_temps l).

(** syms.rs 490-505: [TempScope]. *)
Record tscope := mkTscope { sc_base : N; sc_nlocals : N; sc_ntemps : N }.

(** syms.rs 474-484; [None] is the [expect]. *)
Definition temp_scope (l : lsyms) (t : tstate) : option tscope :=
  let n := N.of_nat (id_len (ls_locals l)) in
  if n <? u8_ids then Some (mkTscope (ts_next t) n 0) else None.

(** The register of a temporary: [u8::try_from] and then [Register::local]. *)
Definition temp_register (nlocals temp : N) : res sym_error N :=
  if nlocals + temp <? u8_ids then
    match register_local (nlocals + temp) with
    | Some r => Ok r
    | None => Err (SeOutOfRegisters ScTemp)
    end
  else Err (SeOutOfRegisters ScTemp).

(** syms.rs 517-521. *)
Definition scope_first (s : tscope) : res sym_error N := temp_register (sc_nlocals s) (sc_base s).

(** syms.rs 524-549. *)
Definition scope_alloc (s : tscope) (t : tstate) : res sym_error (N * tscope * tstate) :=
  let temp := ts_next t in
  let s' := mkTscope (sc_base s) (sc_nlocals s) (sc_ntemps s + 1) in
  if temp + 1 <? u8_ids then
    let t' := mkTstate (temp + 1) (N.max (ts_count t) (temp + 1)) in
    match temp_register (sc_nlocals s) temp with
    | Ok r => Ok (r, s', t')
    | Err e => Err e
    end
  else Err (SeOutOfRegisters ScTemp).

(** syms.rs 507-513. *)
Definition scope_drop (s : tscope) (t : tstate) : tstate :=
  mkTstate (ts_next t - sc_ntemps s) (ts_count t).

(** syms.rs 312-350, the part before running the body: reserves one temporary. *)
Definition reserve_temp (l : lsyms) : res sym_error (N * lsyms) :=
  let n := N.of_nat (id_len (ls_locals l)) in
  if n <? u8_ids then
    let first := ls_active_temps l in
    if first + 1 <? u8_ids then
      match temp_register n first with
      | Ok r => Ok (r, mkLsyms (ls_global l) (ls_locals l) (N.max (ls_count_temps l) (first + 1))
                         (first + 1))
      | Err e => Err e
      end
    else Err (SeOutOfRegisters ScTemp)
  else Err (SeOutOfRegisters ScLocal).

(** syms.rs 325-331: the guard that releases it. *)
Definition release_temp (l : lsyms) : lsyms :=
  mkLsyms (ls_global l) (ls_locals l) (ls_count_temps l) (ls_active_temps l - 1).
