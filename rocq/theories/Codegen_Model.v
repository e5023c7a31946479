(** Code generation: core/src/compiler/codegen.rs, compiler errors (core/src/compiler/mod.rs) and
    images (core/src/image.rs). *)
From Verif Require Import Base Bytecode_Model Mem_Model Vm_Model Ids_Model Ast_Model Syms_Model.
Local Open Scope N_scope.

(** mod.rs 50-148: [Error].  Operator names are the operators themselves; messages that a
    variant derives from its fields are left out.  [CeParse] is any error of the parser. *)
Inductive exit_kind := ExitDo | ExitFor | ExitFunction | ExitSub.
Inductive cerror :=
| CeAlreadyDefined (pos : linecol) (v : varref)
| CeArrayUsedAsScalar (pos : linecol) (v : varref)
| CeBinaryOpType (pos : linecol) (o : binop) (l r : etype)
| CeCallableSyntax (pos : linecol) (md : callable_md)
| CeCannotNest (pos : linecol)
| CeDuplicateLabel (pos : linecol) (l : ustr)
| CeIncompatibleTypesInAssignment (pos : linecol) (got want : etype)
| CeIncompatibleAnnotation (pos : linecol) (v : varref)
| CeInvalidEndCode (pos : linecol)
| CeMisplacedExit (pos : linecol) (k : exit_kind)
| CeNotAFunction (pos : linecol) (v : varref)
| CeNotANumber (pos : linecol) (t : etype)
| CeNotAnArray (pos : linecol) (v : varref)
| CeOutOfConstants (pos : linecol)
| CeOutOfRegisters (pos : linecol) (s : reg_scope)
| CeOutOfUpcalls (pos : linecol)
| CeParse (pos : linecol) (msg : ustr)
| CeTargetTooFar (pos : linecol) (target : nat)
| CeTooManyDimensions (pos : linecol) (n : nat)
| CeTypeMismatch (pos : linecol) (got want : etype)
| CeUndefinedSymbol (pos : linecol) (v : varref)
| CeUnknownLabel (pos : linecol) (l : ustr)
| CeWrongNumberOfSubscripts (pos : linecol) (expected actual : nat).

(** Result of a compilation function: a value, an error or a panic. *)
Inductive cres (A : Type) := COk (a : A) | CErr (e : cerror) | CPanic.
Arguments COk {A} a.
Arguments CErr {A} e.
Arguments CPanic {A}.

(** The [?] operator. *)
Definition bind {A B} (x : cres A) (f : A -> cres B) : cres B :=
  match x with COk a => f a | CErr e => CErr e | CPanic => CPanic end.
Notation "'let*' p ':=' x 'in' y" := (bind x (fun p => y))
  (at level 200, p pattern, x at level 100, y at level 200, right associativity).

(** mod.rs 189-198: [Error::from_syms]. *)
Definition from_syms (e : sym_error) (pos : linecol) : cerror :=
  match e with
  | SeAlreadyDefined v => CeAlreadyDefined pos v
  | SeIncompatible v => CeIncompatibleAnnotation pos v
  | SeOutOfRegisters s => CeOutOfRegisters pos s
  | SeUndefined v _ => CeUndefinedSymbol pos v
  end.

(** A symbol table result with its error placed at [pos]. *)
Definition of_syms {A} (pos : linecol) (r : res sym_error A) : cres A :=
  match r with Ok a => COk a | Err e => CErr (from_syms e pos) end.

(** codegen.rs 29-45: [Fixup]. *)
Inductive fixup :=
| FxCall (reg : N) (key : ustr)
| FxGosub (label : ustr)
| FxGoto (label : ustr)
| FxOnErrorGoto (label : ustr).

(** codegen.rs 48-73: [Codegen].  Instructions are kept decoded and encoded when an image is
    built: [decode] inverts [encode] on everything the compiler emits (C01).  Fixups are in
    the order in which the hash map is drained, which Rust leaves unspecified; every theorem
    about them holds for any order. *)
Record codegen := mkCodegen {
  g_code : list instr;
  g_instrs : list instr_meta;
  g_constants : @idmap cdatum etype;
  g_fixups : list (nat * fixup);
  g_labels : list (ustr * nat);
  g_callables : list (ustr * (nat * nat));
  g_upcalls : @idmap ustr (option etype)
}.

Definition codegen_new : codegen := mkCodegen [] [] id_empty [] [] [] id_empty.

Definition with_code (g : codegen) (c : list instr) (m : list instr_meta) : codegen :=
  mkCodegen c m (g_constants g) (g_fixups g) (g_labels g) (g_callables g) (g_upcalls g).

(** codegen.rs 76-78. *)
Definition next_pc (g : codegen) : nat := length (g_code g).

(** codegen.rs 81-89.  The address it returns is [next_pc] of the state before. *)
Definition emit (i : instr) (pos : linecol) (g : codegen) : codegen :=
  with_code g (g_code g ++ [i]) (g_instrs g ++ [mkMeta pos false []]).

(** codegen.rs 92-94; indexing out of range panics, but every caller passes an address that
    was emitted, and the update below is then the same. *)
Definition mark_statement_start (a : nat) (g : codegen) : codegen :=
  with_code g (g_code g)
    match nth_error (g_instrs g) a with
    | Some m => upd (g_instrs g) a (mkMeta (m_pos m) true (m_args m))
    | None => g_instrs g
    end.

(** codegen.rs 101-103. *)
Definition set_arg_linecols (a : nat) (l : list linecol) (g : codegen) : codegen :=
  with_code g (g_code g)
    match nth_error (g_instrs g) a with
    | Some m => upd (g_instrs g) a (mkMeta (m_pos m) (m_stmt_start m) l)
    | None => g_instrs g
    end.

(** codegen.rs 106-111. *)
Definition pop_eof (g : codegen) : codegen :=
  match g_code g with
  | [] => g
  | _ => with_code g (removelast (g_code g)) (removelast (g_instrs g))
  end.

(** codegen.rs 158-160. *)
Definition patch (a : nat) (i : instr) (g : codegen) : codegen :=
  with_code g (upd (g_code g) a i) (g_instrs g).

(** codegen.rs 163-166. *)
Definition add_fixup (a : nat) (f : fixup) (g : codegen) : codegen :=
  mkCodegen (g_code g) (g_instrs g) (g_constants g) ((a, f) :: g_fixups g) (g_labels g)
    (g_callables g) (g_upcalls g).

(** codegen.rs 169-180. *)
Definition get_constant (c : cdatum) (pos : linecol) (g : codegen) : cres (codegen * N) :=
  match id_get cdatum_eqb (g_constants g) c with
  | Some (_, i) => COk (g, i)
  | None =>
      match id_insert cdatum_eqb u16_ids (g_constants g) c (cdatum_etype c) with
      | Some (m, (_, i)) =>
          COk (mkCodegen (g_code g) (g_instrs g) m (g_fixups g) (g_labels g) (g_callables g)
                 (g_upcalls g), i)
      | None => CErr (CeOutOfConstants pos)
      end
  end.

(** codegen.rs 114-122. *)
Definition default_instr (r : N) (t : etype) : instr :=
  match t with
  | TBoolean | TDouble | TInteger => ILoadInteger r 0
  | TText => IAlloc r TText
  end.
Definition emit_default (r : N) (t : etype) (pos : linecol) (g : codegen) : codegen :=
  emit (default_instr r t) pos g.

(** codegen.rs 125-153. *)
Definition emit_value (r : N) (d : cdatum) (pos : linecol) (g : codegen) : cres codegen :=
  match d with
  | CBool b => COk (emit (ILoadInteger r (if b then 1 else 0)) pos g)
  | CInt z =>
      if ((0 <=? z) && (z <=? 65535))%Z then COk (emit (ILoadInteger r (Z.to_N z)) pos g)
      else let* (g, i) := get_constant d pos g in COk (emit (ILoadConstant r i) pos g)
  | CDouble _ => let* (g, i) := get_constant d pos g in COk (emit (ILoadConstant r i) pos g)
  | CText _ => let* (g, i) := get_constant d pos g in COk (emit (ILoadInteger r i) pos g)
  end.

(** codegen.rs 183-185. *)
Definition define_user_callable (key : ustr) (s e : nat) (g : codegen) : codegen :=
  mkCodegen (g_code g) (g_instrs g) (g_constants g) (g_fixups g) (g_labels g)
    (assoc_insert (g_callables g) key (s, e)) (g_upcalls g).

(** codegen.rs 188-190. *)
Definition define_label (key : ustr) (a : nat) (g : codegen) : codegen * bool :=
  (mkCodegen (g_code g) (g_instrs g) (g_constants g) (g_fixups g)
     (assoc_insert (g_labels g) key a) (g_callables g) (g_upcalls g),
   match assoc (g_labels g) key with None => true | Some _ => false end).

(** codegen.rs 193-198. *)
Definition make_target (target : nat) (pos : linecol) : cres N :=
  if N.of_nat target <? 65536 then COk (N.of_nat target) else CErr (CeTargetTooFar pos target).

(** codegen.rs 203-234: the instruction that replaces one fixup. *)
Definition resolve_fixup (g : codegen) (pos : linecol) (f : fixup) : cres instr :=
  match f with
  | FxCall r key =>
      match assoc (g_callables g) key with
      | Some (target, _) => let* t := make_target target pos in COk (ICall r t)
      | None => CPanic
      end
  | FxGosub l =>
      match assoc (g_labels g) (symkey l) with
      | Some target => let* t := make_target target pos in COk (IGosub t)
      | None => CErr (CeUnknownLabel pos l)
      end
  | FxGoto l =>
      match assoc (g_labels g) (symkey l) with
      | Some target => let* t := make_target target pos in COk (IJump t)
      | None => CErr (CeUnknownLabel pos l)
      end
  | FxOnErrorGoto l =>
      match assoc (g_labels g) (symkey l) with
      | Some target => let* t := make_target target pos in COk (ISetErrorHandler EhJump t)
      | None => CErr (CeUnknownLabel pos l)
      end
  end.

(** codegen.rs 201-239: drains the fixups. *)
Fixpoint apply_fixup_list (l : list (nat * fixup)) (g : codegen) : cres codegen :=
  match l with
  | [] => COk g
  | (a, f) :: l' =>
      match nth_error (g_instrs g) a with
      | None => CPanic
      | Some m => let* i := resolve_fixup g (m_pos m) f in apply_fixup_list l' (patch a i g)
      end
  end.
Definition apply_fixups (g : codegen) : cres codegen :=
  apply_fixup_list (g_fixups g)
    (mkCodegen (g_code g) (g_instrs g) (g_constants g) [] (g_labels g) (g_callables g)
       (g_upcalls g)).

(** codegen.rs 242-255. *)
Definition get_upcall (key : ustr) (t : option etype) (pos : linecol) (g : codegen)
  : cres (codegen * N) :=
  match id_get ustr_eqb (g_upcalls g) key with
  | Some (_, i) => COk (g, i)
  | None =>
      match id_insert ustr_eqb u16_ids (g_upcalls g) key t with
      | Some (m, (_, i)) =>
          COk (mkCodegen (g_code g) (g_instrs g) (g_constants g) (g_fixups g) (g_labels g)
                 (g_callables g) m, i)
      | None => CErr (CeOutOfUpcalls pos)
      end
  end.

(** * Images *)

(** image.rs 117-146, 178-196: an [Image] with the debugging information that lookups use. *)
Record cimage := mkCimage {
  ci_code : list N;
  ci_upcalls : list ustr;
  ci_constants : list cdatum;
  ci_data : list (option cdatum);
  ci_instrs : list instr_meta;
  ci_callables : list (nat * (ustr * bool));
  ci_globals : list (ustr * (N * proto));
  ci_program : list (ustr * (N * proto))
}.

(** What the machine reads of an image. *)
Definition runnable (i : cimage) : image :=
  mkImage (ci_code i) (ci_constants i) (ci_data i) (ci_instrs i).

(** image.rs 198-221. *)
Definition cimage_default : cimage :=
  mkCimage [encode IEof] [] [] [] [mkMeta (0, 0) true []] [] [] [].

(** codegen.rs 290-297. *)
Definition callables_map (l : list (ustr * (nat * nat))) : list (nat * (ustr * bool)) :=
  flat_map (fun e => [(fst (snd e), (fst e, true)); (snd (snd e), (fst e, false))]) l.

(** codegen.rs 258-309 and image.rs 149-173.  [None] of [skipn] cannot happen: slices past the
    end would panic, but every slice starts within the codegen's own vectors. *)
Definition build_image_delta (img : cimage) (gv pv : list (ustr * (N * proto)))
    (data : list (option cdatum)) (g : codegen) : cres (codegen * cimage) :=
  let* g := apply_fixups g in
  COk (g, mkCimage
        (map encode (skipn (length (ci_code img) - 1) (g_code g)))
        (keys_to_vec_from (g_upcalls g) (length (ci_upcalls img)))
        (keys_to_vec_from (g_constants g) (length (ci_constants img)))
        (skipn (length (ci_data img)) data)
        (skipn (length (ci_instrs img) - 1) (g_instrs g))
        (callables_map (g_callables g)) gv pv).

(** image.rs 237-254. *)
Definition image_append (img delta : cimage) : cimage :=
  mkCimage
    (removelast (ci_code img) ++ ci_code delta)
    (ci_upcalls img ++ ci_upcalls delta)
    (ci_constants img ++ ci_constants delta)
    (ci_data img ++ ci_data delta)
    (removelast (ci_instrs img) ++ ci_instrs delta)
    (ci_callables delta) (ci_globals delta) (ci_program delta).
