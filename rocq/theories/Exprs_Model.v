(** Compilation of expressions and of callable arguments: core/src/compiler/exprs.rs and
    core/src/compiler/args.rs. *)
From Verif Require Import Base Bytecode_Model Mem_Model Vm_Model Ids_Model Ast_Model Syms_Model
  Codegen_Model.
Local Open Scope N_scope.

(** The mutable state of expression compilation: the generator and the counters of the frozen
    symbol table. *)
Definition est := (codegen * tstate)%type.

Definition e_emit (i : instr) (pos : linecol) (st : est) : est := (emit i pos (fst st), snd st).

(** exprs.rs 397-416: [cast_numerical_type]; [None] is [false]. *)
Definition cast_numerical (r : N) (from to : etype) (pos : linecol) (g : codegen) : option codegen :=
  match from, to with
  | TInteger, TDouble => Some (emit (I1 IntegerToDouble r) pos g)
  | TDouble, TInteger => Some (emit (I1 DoubleToInteger r) pos g)
  | TDouble, TDouble | TInteger, TInteger => Some g
  | _, _ => None
  end.

(** exprs.rs 419-445. *)
Definition resolve_numeric (r : N) (lt : etype) (rtemp : N) (rt : etype) (rpos op_pos : linecol)
    (g : codegen) : option (codegen * etype) :=
  match lt, rt with
  | TDouble, TDouble => Some (g, TDouble)
  | TInteger, TInteger => Some (g, TInteger)
  | TDouble, TInteger => Some (emit (I1 IntegerToDouble rtemp) rpos g, TDouble)
  | TInteger, TDouble => Some (emit (I1 IntegerToDouble r) op_pos g, TDouble)
  | _, _ => None
  end.

(** exprs.rs 80-109, 123-392: the opcodes that each operator may become. *)
Definition is_relational (o : binop) : bool :=
  match o with
  | BEqual | BNotEqual | BLess | BLessEqual | BGreater | BGreaterEqual => true
  | _ => false
  end.
Definition make_boolean (o : binop) : option op3 :=
  match o with
  | BAnd => Some BitwiseAnd | BOr => Some BitwiseOr | BXor => Some BitwiseXor
  | BEqual => Some EqualBoolean | BNotEqual => Some NotEqualBoolean
  | _ => None
  end.
Definition make_double (o : binop) : option op3 :=
  match o with
  | BAdd => Some AddDouble | BSubtract => Some SubtractDouble | BMultiply => Some MultiplyDouble
  | BDivide => Some DivideDouble | BModulo => Some ModuloDouble | BPower => Some PowerDouble
  | BEqual => Some EqualDouble | BNotEqual => Some NotEqualDouble
  | BLess => Some LessDouble | BLessEqual => Some LessEqualDouble
  | BGreater => Some GreaterDouble | BGreaterEqual => Some GreaterEqualDouble
  | BAnd | BOr | BXor | BShiftLeft | BShiftRight => None
  end.
Definition make_integer (o : binop) : op3 :=
  match o with
  | BAdd => AddInteger | BSubtract => SubtractInteger | BMultiply => MultiplyInteger
  | BDivide => DivideInteger | BModulo => ModuloInteger | BPower => PowerInteger
  | BEqual => EqualInteger | BNotEqual => NotEqualInteger
  | BLess => LessInteger | BLessEqual => LessEqualInteger
  | BGreater => GreaterInteger | BGreaterEqual => GreaterEqualInteger
  | BAnd => BitwiseAnd | BOr => BitwiseOr | BXor => BitwiseXor
  | BShiftLeft => ShiftLeft | BShiftRight => ShiftRight
  end.
Definition make_text (o : binop) : option op3 :=
  match o with
  | BAdd => Some Concat
  | BEqual => Some EqualText | BNotEqual => Some NotEqualText
  | BLess => Some LessText | BLessEqual => Some LessEqualText
  | BGreater => Some GreaterText | BGreaterEqual => Some GreaterEqualText
  | _ => None
  end.
Definition unary_boolean (o : unop) : option op3 :=
  match o with UNegate => None | UNot => Some BitwiseXor end.
Definition unary_integer (o : unop) : op1 :=
  match o with UNegate => NegateInteger | UNot => BitwiseNot end.
Definition unary_double (o : unop) : option op1 :=
  match o with UNegate => Some NegateDouble | UNot => None end.

(** A compiled subexpression: given the register for its value, code that computes it there. *)
Definition closure := N -> est -> cres (est * etype).

(** An argument of a call with its expression and the expression's compilation.  The Rust code
    passes expressions and calls [compile_expr] on them; passing the compilation next to the
    expression makes the recursion structural. *)
Definition carg := (option (expr * closure) * argsep * linecol)%type.

Section Exprs.
(** The symbol table, which does not change while an expression is compiled. *)
Variable ls : lsyms.

(** syms.rs 474-484. *)
Definition open_scope (st : est) : cres tscope :=
  match temp_scope ls (snd st) with Some s => COk s | None => CPanic end.

(** syms.rs 524-549, with [map_err]. *)
Definition alloc (s : tscope) (pos : linecol) (st : est) : cres (N * tscope * est) :=
  match scope_alloc s (snd st) with
  | Ok (r, s', t) => COk (r, s', (fst st, t))
  | Err e => CErr (from_syms e pos)
  end.

(** The end of a scope. *)
Definition close (s : tscope) (st : est) : est := (fst st, scope_drop s (snd st)).

(** exprs.rs 461-489. *)
Definition apply_unary (o : unop) (pos : linecol) (reg : N) (t : etype) (st : est)
  : cres (est * etype) :=
  match t, unary_boolean o, unary_double o with
  | TBoolean, Some op, _ =>
      let* s := open_scope st in
      let* (temp, s, st) := alloc s pos st in
      let* g := emit_value temp (CInt 1) pos (fst st) in
      COk (close s (emit (I3 op reg reg temp) pos g, snd st), TBoolean)
  | TDouble, _, Some op => COk (e_emit (I1 op reg) pos st, TDouble)
  | TInteger, _, _ => COk (e_emit (I1 (unary_integer o) reg) pos st, TInteger)
  | _, _, _ =>
      match o with
      | UNegate => CErr (CeNotANumber pos t)
      | UNot => CErr (CeTypeMismatch pos t TInteger)
      end
  end.

(** exprs.rs 496-529: choosing and emitting the opcode of a binary operator. *)
Definition binary_op (o : binop) (pos : linecol) (reg : N) (t : etype) (rtemp : N) (rt : etype)
    (rpos : linecol) (g : codegen) : cres (codegen * etype) :=
  let numeric :=
    match make_double o with
    | Some op =>
        match resolve_numeric reg t rtemp rt rpos pos g with
        | Some (g, TDouble) => COk (emit (I3 op reg reg rtemp) pos g, TDouble)
        | Some (g, _) => COk (emit (I3 (make_integer o) reg reg rtemp) pos g, TInteger)
        | None => CErr (CeBinaryOpType pos o t rt)
        end
    | None =>
        match t, rt with
        | TInteger, TInteger => COk (emit (I3 (make_integer o) reg reg rtemp) pos g, TInteger)
        | _, _ => CErr (CeBinaryOpType pos o t rt)
        end
    end in
  match t, rt with
  | TBoolean, TBoolean =>
      match make_boolean o with
      | Some op => COk (emit (I3 op reg reg rtemp) pos g, TBoolean)
      | None => numeric
      end
  | TText, TText =>
      match make_text o with
      | Some op => COk (emit (I3 op reg reg rtemp) pos g, TText)
      | None => numeric
      end
  | _, _ => numeric
  end.

(** exprs.rs 538-563: the same for a relational operator. *)
Definition relational_op (o : binop) (pos : linecol) (reg : N) (t : etype) (rtemp : N) (rt : etype)
    (rpos : linecol) (g : codegen) : cres (codegen * etype) :=
  let numeric :=
    match resolve_numeric reg t rtemp rt rpos pos g with
    | Some (g, TDouble) =>
        match make_double o with
        | Some op => COk (emit (I3 op reg reg rtemp) pos g, TBoolean)
        | None => CPanic
        end
    | Some (g, TInteger) => COk (emit (I3 (make_integer o) reg reg rtemp) pos g, TBoolean)
    | _ => CErr (CeBinaryOpType pos o t rt)
    end in
  match t, rt with
  | TBoolean, TBoolean =>
      match make_boolean o with
      | Some op => COk (emit (I3 op reg reg rtemp) pos g, TBoolean)
      | None => numeric
      end
  | TText, TText =>
      match make_text o with
      | Some op => COk (emit (I3 op reg reg rtemp) pos g, TBoolean)
      | None => numeric
      end
  | _, _ => numeric
  end.

(** exprs.rs 490-495 and 532-536: the right operand goes to a fresh temporary. *)
Definition apply_binary (o : binop) (pos : linecol) (rhs : closure) (rpos : linecol) (reg : N)
    (t : etype) (st : est) : cres (est * etype) :=
  let* s := open_scope st in
  let* (rtemp, s, st) := alloc s rpos st in
  let* (st, rt) := rhs rtemp st in
  let op := if is_relational o then relational_op else binary_op in
  let* (g, t) := op o pos reg t rtemp rt rpos (fst st) in
  COk (close s (g, snd st), t).

(** exprs.rs 750-768, given the compiled expression and its start position. *)
Definition as_type (c : closure) (epos : linecol) (reg : N) (target : etype) (st : est)
  : cres est :=
  let* (st, t) := c reg st in
  if etype_eqb t target then COk st
  else
    match cast_numerical reg t target epos (fst st) with
    | Some g => COk (g, snd st)
    | None =>
        CErr (if is_numerical target then CeNotANumber epos t else CeTypeMismatch epos t target)
    end.

(** exprs.rs 30-46: each expression into a register of the caller's scope; [None] among the
    expressions is the [expect] of [compile_array_access].  Returns the first register if
    there was any expression. *)
Fixpoint integer_exprs (es : list (option (expr * closure))) (s : tscope) (pos : linecol)
    (first : option N) (st : est) : cres (option N * tscope * est) :=
  match es with
  | [] => COk (first, s, st)
  | None :: _ => CPanic
  | Some (e, c) :: es' =>
      let* (r, s, st) := alloc s pos st in
      let* st := as_type c (start_pos e) r TInteger st in
      integer_exprs es' s pos (match first with None => Some r | _ => first end) st
  end.

(** exprs.rs 49-72. *)
Definition array_access (reg : N) (key_pos : linecol) (arr : N) (t : etype) (ndims : nat)
    (args : list carg) (st : est) : cres (est * etype) :=
  if negb (Nat.eqb (length args) ndims) then
    CErr (CeWrongNumberOfSubscripts key_pos ndims (length args))
  else
    let* s := open_scope st in
    let* (first, s, st) := integer_exprs (map (fun a => fst (fst a)) args) s key_pos None st in
    match first with
    | None => CPanic
    | Some f => COk (close s (e_emit (I3 LoadArray reg arr f) key_pos st), t)
    end.

(** * Arguments *)

(** args.rs 44-94, without the debug assertions. *)
Definition validate_argsep (md : callable_md) (syn : argsep_syntax) (end_ok : bool) (sep : argsep)
    (sep_pos : linecol) : cres unit :=
  let bad := CErr (CeCallableSyntax sep_pos md) in
  match syn with
  | SepExactly exp =>
      if argsep_eqb sep exp || (argsep_eqb sep SepEnd && end_ok) then COk tt else bad
  | SepOneOf exps =>
      if argsep_eqb sep SepEnd then if end_ok then COk tt else bad
      else if existsb (argsep_eqb sep) exps then COk tt else bad
  | SepEndOnly => COk tt
  end.

Definition arg_pos_of (e : option (expr * closure)) (sep_pos : linecol) : linecol :=
  match e with Some (e, _) => start_pos e | None => sep_pos end.

(** State of [compile_args]: its scope, the generator and the positions collected. *)
Definition argst := (tscope * est * list linecol)%type.

Definition arg_alloc (pos : linecol) (a : argst) : cres (N * argst) :=
  let '(s, st, l) := a in
  let* (r, s, st) := alloc s pos st in COk (r, (s, st, l ++ [pos])).
Definition arg_emit (i : instr) (pos : linecol) (a : argst) : argst :=
  let '(s, st, l) := a in (s, e_emit i pos st, l).
Definition arg_compile (c : closure) (r : N) (a : argst) : cres (argst * etype) :=
  let '(s, st, l) := a in let* (st, t) := c r st in COk ((s, st, l), t).
Definition arg_compile_as (c : closure) (epos : linecol) (r : N) (t : etype) (a : argst)
  : cres argst :=
  let '(s, st, l) := a in let* st := as_type c epos r t st in COk (s, st, l).

(** args.rs 264-285 and 457-475: the register and type behind a reference.  [define] is whether
    undefined variables are defined by the command, in which case the caller did so already;
    [pos_bad] is where a symbol of the wrong kind is reported. *)
Definition lookup_ref (md : callable_md) (require_array define : bool) (v : varref)
    (pos pos_bad : linecol) : cres (N * etype) :=
  match get_local_or_global ls v with
  | Ok (r, PArray t _) => if require_array then COk (r, t) else CErr (CeCallableSyntax pos_bad md)
  | Ok (r, PScalar t) => if require_array then CErr (CeCallableSyntax pos_bad md) else COk (r, t)
  | Err (SeUndefined w s) =>
      if define then
        match get_callable (ls_global ls) (symkey (vr_name v)) with
        | Some _ => CErr (CeNotAFunction pos v)
        | None => CPanic
        end
      else CErr (from_syms (SeUndefined w s) pos)
  | Err e => CErr (from_syms e pos)
  end.

(** args.rs 232-360: one argument of the fixed part. *)
Definition singular_arg (md : callable_md) (key_pos : linecol) (syn : singular_syntax)
    (end_ok : bool) (args : list carg) (a : argst) : cres (list carg * argst) :=
  match syn with
  | RequiredValue _ t sepsyn =>
      match args with
      | [] => CPanic
      | (e, sep, sep_pos) :: args =>
          match e with
          | None => CErr (CeCallableSyntax key_pos md)
          | Some (e, c) =>
              let* (r, a) := arg_alloc (start_pos e) a in
              let* a := arg_compile_as c (start_pos e) r t a in
              let* _ := validate_argsep md sepsyn end_ok sep sep_pos in
              COk (args, a)
          end
      end
  | RequiredRef _ require_array define sepsyn =>
      match args with
      | [] => CPanic
      | (e, sep, sep_pos) :: args =>
          match e with
          | None => CErr (CeCallableSyntax key_pos md)
          | Some (ESymbol v pos, _) =>
              let* (reg, t) := lookup_ref md require_array define v pos pos in
              let* (r, a) := arg_alloc pos a in
              let a := arg_emit (ILoadRegPtr r t reg) pos a in
              let* _ := validate_argsep md sepsyn end_ok sep sep_pos in
              COk (args, a)
          | Some (e, _) => CErr (CeCallableSyntax (start_pos e) md)
          end
      end
  | OptionalValue _ t sepsyn =>
      let '(e, sep, sep_pos, args) :=
        match args with
        | (e, sep, sep_pos) :: args => (e, sep, sep_pos, args)
        | [] => (None, SepEnd, key_pos, [])
        end in
      let pos := arg_pos_of e sep_pos in
      let* (tag_reg, a) := arg_alloc pos a in
      let* (tag, a) :=
        match e with
        | None => COk (VMissing sep, a)
        | Some (_, c) =>
            let* (r, a) := arg_alloc pos a in
            let* a := arg_compile_as c pos r t a in
            COk (VImmediate sep t, a)
        end in
      let* _ := validate_argsep md sepsyn end_ok sep sep_pos in
      COk (args, arg_emit (ILoadInteger tag_reg (vararg_make tag)) pos a)
  | AnyValue _ allow_missing sepsyn =>
      let* (e, sep, sep_pos, args) :=
        match args with
        | (e, sep, sep_pos) :: args => COk (e, sep, sep_pos, args)
        | [] => if allow_missing then COk (None, SepEnd, key_pos, [])
                else CErr (CeCallableSyntax key_pos md)
        end in
      let pos := arg_pos_of e sep_pos in
      let* (tag_reg, a) := arg_alloc pos a in
      let* (tag, a) :=
        match e with
        | None => COk (VMissing sep, a)
        | Some (_, c) =>
            let* (r, a) := arg_alloc pos a in
            let* (a, t) := arg_compile c r a in
            COk (VImmediate sep t, a)
        end in
      let* _ := validate_argsep md sepsyn end_ok sep sep_pos in
      COk (args, arg_emit (ILoadInteger tag_reg (vararg_make tag)) pos a)
  end.

(** args.rs 227-361. [one_singular] is [input_nargs == singular.len() && !require_one]. *)
Fixpoint singular_args (md : callable_md) (key_pos : linecol) (one_singular : bool)
    (syns : list singular_syntax) (args : list carg) (a : argst) : cres (list carg * argst) :=
  match syns with
  | [] => COk (args, a)
  | syn :: syns' =>
      let end_ok := match syns' with [] => one_singular | _ => false end in
      let* (args, a) := singular_arg md key_pos syn end_ok args a in
      singular_args md key_pos one_singular syns' args a
  end.

(** args.rs 391-409: repeated arguments without tags. *)
Fixpoint plain_args (md : callable_md) (sepsyn : argsep_syntax) (t : etype) (args : list carg)
    (a : argst) : cres argst :=
  match args with
  | [] => COk a
  | (e, sep, sep_pos) :: args' =>
      let pos := arg_pos_of e sep_pos in
      let* _ := validate_argsep md sepsyn true sep sep_pos in
      match e with
      | None => CErr (CeCallableSyntax pos md)
      | Some (_, c) =>
          let* (r, a) := arg_alloc pos a in
          let* a := arg_compile_as c pos r t a in
          plain_args md sepsyn t args' a
      end
  end.

(** args.rs 418-485: repeated arguments with tags. *)
Fixpoint tagged_args (md : callable_md) (rp : repeated_syntax) (args : list carg) (a : argst)
  : cres argst :=
  match args with
  | [] => COk a
  | (e, sep, sep_pos) :: args' =>
      let pos := arg_pos_of e sep_pos in
      let* (tag_reg, a) := arg_alloc pos a in
      let* _ := validate_argsep md (rp_sep rp) true sep sep_pos in
      let* (tag, a) :=
        match e with
        | None =>
            if rp_allow_missing rp then COk (VMissing sep, a) else CErr (CeCallableSyntax pos md)
        | Some (e, c) =>
            match rp_type rp with
            | RepAny =>
                let* (r, a) := arg_alloc pos a in
                let* (a, t) := arg_compile c r a in
                COk (VImmediate sep t, a)
            | RepTyped t =>
                let* (r, a) := arg_alloc pos a in
                let* a := arg_compile_as c pos r t a in
                COk (VImmediate sep t, a)
            | RepRef =>
                match e with
                | ESymbol v vpos =>
                    let* (reg, t) := lookup_ref md false true v vpos pos in
                    let* (r, a) := arg_alloc pos a in
                    COk (VPointer sep, arg_emit (ILoadRegPtr r t reg) pos a)
                | _ => CErr (CeCallableSyntax pos md)
                end
            end
        end in
      tagged_args md rp args' (arg_emit (ILoadInteger tag_reg (vararg_make tag)) pos a)
  end.

(** args.rs 205-496. *)
Definition compile_args (md : callable_md) (key_pos : linecol) (args : list carg) (st : est)
  : cres (est * N * list linecol) :=
  match find_syntax md (length args) with
  | None => CErr (CeCallableSyntax key_pos md)
  | Some syn =>
      let nsing := length (sy_singular syn) in
      let* s := open_scope st in
      let one_singular :=
        Nat.eqb (length args) nsing &&
        match sy_repeated syn with Some rp => negb (rp_require_one rp) | None => false end in
      let* (rest, a) := singular_args md key_pos one_singular (sy_singular syn) args (s, st, []) in
      let* (rest, a) :=
        match sy_repeated syn with
        | None => COk (rest, a)
        | Some rp =>
            if Nat.ltb (length args) (if rp_require_one rp then nsing + 1 else nsing)%nat then
              CErr (CeCallableSyntax key_pos md)
            else
              match rp_type rp, rp_allow_missing rp, rp_sep rp with
              | RepTyped t, false, SepExactly _ =>
                  let* a := plain_args md (rp_sep rp) t rest a in COk ([], a)
              | _, _, _ =>
                  let* a :=
                    match rest with
                    | [] =>
                        let* (r, a) := arg_alloc key_pos a in
                        COk (arg_emit (ILoadInteger r (vararg_make (VMissing SepEnd))) key_pos a)
                    | _ => COk a
                    end in
                  let* a := tagged_args md rp rest a in COk ([], a)
              end
        end in
      match rest with
      | _ :: _ => CErr (CeCallableSyntax key_pos md)
      | [] =>
          let '(s, st, l) := a in
          match scope_first s with
          | Ok r => COk (close s st, r, l)
          | Err e => CErr (from_syms e key_pos)
          end
      end
  end.

(** exprs.rs 642-650 and 716-731: the instruction that calls a built-in function. *)
Definition upcall_instr (md : callable_md) (idx r : N) : instr :=
  if md_async md then IUpcallAsync idx r else IUpcall idx r.

(** exprs.rs 609-670. *)
Definition compile_call (v : varref) (vpos : linecol) (args : list carg) (reg : N) (st : est)
  : cres (est * etype) :=
  let key := symkey (vr_name v) in
  match get_callable (ls_global ls) key with
  | Some md =>
      match md_return md with
      | None => CErr (CeNotAFunction vpos v)
      | Some t =>
          if negb (accepts_callable v (Some t)) then CErr (CeIncompatibleAnnotation vpos v)
          else if is_argless md then CErr (CeCallableSyntax vpos md)
          else
            let* s := open_scope st in
            let* (ret, s, st) := alloc s vpos st in
            let* (st, _, lcs) := compile_args md vpos args st in
            let* g :=
              if md_user md then
                let a := next_pc (fst st) in
                COk (add_fixup a (FxCall ret key) (set_arg_linecols a lcs (emit INop vpos (fst st))))
              else
                let* (g, idx) := get_upcall key (Some t) vpos (fst st) in
                COk (set_arg_linecols (next_pc g) lcs (emit (upcall_instr md idx ret) vpos g)) in
            let g := if negb (reg =? ret) then emit (IMove reg ret) vpos g else g in
            COk (close s (g, snd st), t)
      end
  | None =>
      match get_local_or_global ls v with
      | Ok (arr, PArray t ndims) => array_access reg vpos arr t ndims args st
      | Ok (_, PScalar _) => CErr (CeNotAFunction vpos v)
      | Err (SeUndefined _ _) => CErr (CeUndefinedSymbol vpos v)
      | Err e => CErr (from_syms e vpos)
      end
  end.

(** exprs.rs 682-737. *)
Definition compile_symbol (v : varref) (pos : linecol) (reg : N) (st : est) : cres (est * etype) :=
  match get_local_or_global ls v with
  | Ok (r, PScalar t) => COk (e_emit (IMove reg r) pos st, t)
  | Ok (_, PArray _ _) => CErr (CeArrayUsedAsScalar pos v)
  | Err (SeUndefined _ _) =>
      let key := symkey (vr_name v) in
      match get_callable (ls_global ls) key with
      | None => CErr (CeUndefinedSymbol pos v)
      | Some md =>
          match md_return md with
          | None => CErr (CeNotAFunction pos v)
          | Some t =>
              if negb (accepts_callable v (Some t)) then CErr (CeIncompatibleAnnotation pos v)
              else if negb (is_argless md) then CErr (CeCallableSyntax pos md)
              else if md_user md then
                let a := next_pc (fst st) in
                COk ((add_fixup a (FxCall reg key) (emit INop pos (fst st)), snd st), t)
              else
                let* (g, idx) := get_upcall key (Some t) pos (fst st) in
                if fst (register_to_parts reg) then
                  let* s := open_scope (g, snd st) in
                  let* (temp, s, st) := alloc s pos (g, snd st) in
                  COk (close s (e_emit (IMove reg temp) pos
                                  (e_emit (upcall_instr md idx temp) pos st)), t)
                else COk ((emit (upcall_instr md idx reg) pos g, snd st), t)
          end
      end
  | Err e => CErr (from_syms e pos)
  end.

Definition compile_literal (d : cdatum) (t : etype) (pos : linecol) (reg : N) (st : est)
  : cres (est * etype) :=
  let* g := emit_value reg d pos (fst st) in COk ((g, snd st), t).

(** exprs.rs 575-746.  The Rust function peels the chain of operators on the left and then
    applies them from the innermost one; [compile_expr_peeled] in Exprs_Proofs shows that the
    recursion below does the same. *)
Fixpoint compile_expr (e : expr) (reg : N) (st : est) {struct e} : cres (est * etype) :=
  match e with
  | EBoolean b pos => compile_literal (CBool b) TBoolean pos reg st
  | EDouble d pos => compile_literal (CDouble d) TDouble pos reg st
  | EInteger z pos => compile_literal (CInt z) TInteger pos reg st
  | EText s pos => compile_literal (CText s) TText pos reg st
  | ESymbol v pos => compile_symbol v pos reg st
  | ECall v vpos args =>
      compile_call v vpos
        (map (fun a => match a with
                       | (Some e, sep, pos) => (Some (e, fun r s => compile_expr e r s), sep, pos)
                       | (None, sep, pos) => (None, sep, pos)
                       end) args) reg st
  | EBinary o l r pos =>
      let* (st, t) := compile_expr l reg st in
      apply_binary o pos (fun reg st => compile_expr r reg st) (start_pos r) reg t st
  | EUnary o e pos =>
      let* (st, t) := compile_expr e reg st in
      apply_unary o pos reg t st
  end.

(** An argument as [compile_args] takes it. *)
Definition with_closure (a : argspan) : carg :=
  match a with
  | (Some e, sep, pos) => (Some (e, compile_expr e), sep, pos)
  | (None, sep, pos) => (None, sep, pos)
  end.

Definition compile_expr_as_type (e : expr) (reg : N) (target : etype) (st : est) : cres est :=
  as_type (compile_expr e) (start_pos e) reg target st.

(** * The loop of the Rust code *)

(** exprs.rs 111-117. *)
Inductive pending :=
| PUnary (o : unop) (pos : linecol)
| PBinary (o : binop) (rhs : expr) (pos : linecol).

(** exprs.rs 123-392; the head of the list is the end of the Rust vector. *)
Fixpoint peel_ops (e : expr) (acc : list pending) : expr * list pending :=
  match e with
  | EBinary o l r pos => peel_ops l (PBinary o r pos :: acc)
  | EUnary o e pos => peel_ops e (PUnary o pos :: acc)
  | _ => (e, acc)
  end.

(** exprs.rs 452-569. *)
Fixpoint compile_pending (ops : list pending) (reg : N) (t : etype) (st : est)
  : cres (est * etype) :=
  match ops with
  | [] => COk (st, t)
  | PUnary o pos :: ops' =>
      let* (st, t) := apply_unary o pos reg t st in compile_pending ops' reg t st
  | PBinary o rhs pos :: ops' =>
      let* (st, t) := apply_binary o pos (compile_expr rhs) (start_pos rhs) reg t st in
      compile_pending ops' reg t st
  end.

End Exprs.

(** args.rs 98-111. *)
Definition define_new_arg (v : varref) (pos : linecol) (s : codegen * lsyms)
  : cres (codegen * lsyms) :=
  let t := match vr_type v with Some t => t | None => TInteger end in
  match put_local (snd s) (symkey (vr_name v)) (PScalar t) with
  | None => CPanic
  | Some (_, Err e) => CErr (from_syms e pos)
  | Some (l, Ok r) => COk (emit_default r t pos (fst s), l)
  end.

(** args.rs 136-146 and 163-177: defines the variable that a reference names, if it is new. *)
Definition define_ref (e : option expr) (s : codegen * lsyms) : cres (codegen * lsyms) :=
  match e with
  | Some (ESymbol v pos) =>
      match get_local_or_global (snd s) v with
      | Err (SeUndefined _ _) =>
          match get_callable (ls_global (snd s)) (symkey (vr_name v)) with
          | Some _ => COk s
          | None => define_new_arg v pos s
          end
      | _ => COk s
      end
  | _ => COk s
  end.

Fixpoint define_singular (syns : list singular_syntax) (args : list argspan) (s : codegen * lsyms)
  : cres (list argspan * (codegen * lsyms)) :=
  match syns with
  | [] => COk (args, s)
  | RequiredValue _ _ _ :: syns' =>
      match args with [] => CPanic | _ :: args' => define_singular syns' args' s end
  | RequiredRef _ _ define _ :: syns' =>
      match args with
      | [] => CPanic
      | (e, _, _) :: args' =>
          let* s := (if define then define_ref e s else COk s) in define_singular syns' args' s
      end
  | OptionalValue _ _ _ :: syns' | AnyValue _ _ _ :: syns' => define_singular syns' (tl args) s
  end.
Fixpoint define_repeated (args : list argspan) (s : codegen * lsyms) : cres (codegen * lsyms) :=
  match args with
  | [] => COk s
  | (e, _, _) :: args' => let* s := define_ref e s in define_repeated args' s
  end.

(** args.rs 114-182. *)
Definition define_new_args (md : callable_md) (vpos : linecol) (args : list argspan)
    (s : codegen * lsyms) : cres (codegen * lsyms) :=
  match find_syntax md (length args) with
  | None => CErr (CeCallableSyntax vpos md)
  | Some syn =>
      let* (rest, s) := define_singular (sy_singular syn) args s in
      match sy_repeated syn with
      | Some (mkRepeated _ RepRef _ _ _) => define_repeated rest s
      | _ => COk s
      end
  end.
