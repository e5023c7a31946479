(** Compilation of statements and programs: core/src/compiler/top.rs and the [Compiler] of
    core/src/compiler/mod.rs.  Debug assertions are not modelled. *)
From Verif Require Import Base Bytecode_Model Mem_Model Num_Model Vm_Model Ids_Model Ast_Model
  Syms_Model Codegen_Model Exprs_Model.
Local Open Scope N_scope.

(** top.rs 45-53. *)
Inductive ckind := KFunction | KSub.

(** top.rs 60-81: [Context].  The head of an exit stack is the innermost loop. *)
Record tctx := mkTctx {
  t_gen : codegen;
  t_data : list (option cdatum);
  t_do : list (list (nat * linecol));
  t_for : list (list (nat * linecol));
  t_current : option ckind;
  t_defined : list ustr;
  t_exits : list (nat * linecol)
}.
Definition tctx_new : tctx := mkTctx codegen_new [] [] [] None [] [].

Definition set_gen (g : codegen) (c : tctx) : tctx :=
  mkTctx g (t_data c) (t_do c) (t_for c) (t_current c) (t_defined c) (t_exits c).
Definition set_do (d : list (list (nat * linecol))) (c : tctx) : tctx :=
  mkTctx (t_gen c) (t_data c) d (t_for c) (t_current c) (t_defined c) (t_exits c).
Definition set_for (d : list (list (nat * linecol))) (c : tctx) : tctx :=
  mkTctx (t_gen c) (t_data c) (t_do c) d (t_current c) (t_defined c) (t_exits c).
Definition set_exits (l : list (nat * linecol)) (c : tctx) : tctx :=
  mkTctx (t_gen c) (t_data c) (t_do c) (t_for c) (t_current c) (t_defined c) l.
Definition set_current (k : option ckind) (c : tctx) : tctx :=
  mkTctx (t_gen c) (t_data c) (t_do c) (t_for c) k (t_defined c) (t_exits c).

(** State of statement compilation: the context and the symbol table of the current scope. *)
Definition sst := (tctx * lsyms)%type.
Definition s_gen (x : sst) : codegen := t_gen (fst x).
Definition s_pc (x : sst) : nat := next_pc (s_gen x).
Definition s_emit (i : instr) (pos : linecol) (x : sst) : sst :=
  (set_gen (emit i pos (s_gen x)) (fst x), snd x).
Definition s_patch (a : nat) (i : instr) (x : sst) : sst :=
  (set_gen (patch a i (s_gen x)) (fst x), snd x).

(** Freezing the symbol table, compiling and letting the table go again. *)
Definition freeze (x : sst) : est := (s_gen x, frozen (snd x)).
Definition unfreeze (x : sst) (st : est) : sst := (set_gen (fst st) (fst x), thaw (snd x) (snd st)).

(** top.rs 84-92; [None] is the [unreachable!]. *)
Definition data_constant (e : expr) : option cdatum :=
  match e with
  | EBoolean b _ => Some (CBool b)
  | EDouble d _ => Some (CDouble d)
  | EInteger z _ => Some (CInt z)
  | EText s _ => Some (CText s)
  | _ => None
  end.

(** top.rs 95-106. *)
Definition static_end_code (e : expr) : option (Z * linecol) :=
  match e with
  | EInteger z pos => Some (z, pos)
  | EUnary UNegate (EInteger z _) pos =>
      if is_i32 (- z) then Some ((- z)%Z, pos) else None
  | _ => None
  end.

(** top.rs 109-156; the order of the traversal does not matter. *)
Fixpoint references (e : expr) (key : ustr) : bool :=
  match e with
  | EBoolean _ _ | EDouble _ _ | EInteger _ _ | EText _ _ => false
  | ESymbol v _ => ustr_eqb (symkey (vr_name v)) key
  | EUnary _ e _ => references e key
  | ECall _ _ args =>
      existsb (fun a => match a with (Some e, _, _) => references e key | (None, _, _) => false end)
        args
  | EBinary _ l r _ => references l key || references r key
  end.

(** top.rs 211-216. *)
Definition assignment_error (e : cerror) : cerror :=
  match e with
  | CeTypeMismatch pos got want => CeIncompatibleTypesInAssignment pos got want
  | e => e
  end.
Definition map_error {A} (f : cerror -> cerror) (r : cres A) : cres A :=
  match r with COk a => COk a | CErr e => CErr (f e) | CPanic => CPanic end.

(** top.rs 159-224. *)
Definition compile_assignment (v : varref) (vpos : linecol) (e : expr) (s : codegen * lsyms)
  : cres (codegen * lsyms) :=
  let key := symkey (vr_name v) in
  let* (l, reg, t, was_defined) :=
    match get_local_or_global (snd s) v with
    | Ok (_, PArray _ _) => CErr (CeArrayUsedAsScalar vpos v)
    | Ok (reg, PScalar t) => COk (snd s, reg, Some t, true)
    | Err (SeUndefined _ _) =>
        match get_callable (ls_global (snd s)) key with
        | Some _ => CErr (CeAlreadyDefined vpos v)
        | None =>
            match put_local (snd s) key
                    (PScalar (match vr_type v with Some t => t | None => TInteger end)) with
            | None => CPanic
            | Some (_, Err e) => CErr (from_syms e vpos)
            | Some (l, Ok reg) => COk (l, reg, vr_type v, false)
            end
        end
    | Err e => CErr (from_syms e vpos)
    end in
  let st := (fst s, frozen l) in
  match t with
  | Some t =>
      map_error assignment_error
        (if was_defined && references e key then
           let* sc := open_scope l st in
           let* (temp, sc, st) := alloc sc vpos st in
           let* st := compile_expr_as_type l e temp t st in
           let st := close sc (e_emit (IMove reg temp) vpos st) in
           COk (fst st, thaw l (snd st))
         else
           let* st := compile_expr_as_type l e reg t st in
           COk (fst st, thaw l (snd st)))
  | None =>
      let* (st, t) := compile_expr l e reg st in
      match fixup_local_type (thaw l (snd st)) v t with
      | Ok l => COk (fst st, l)
      | Err e => CErr (from_syms e vpos)
      end
  end.
Definition s_assignment (v : varref) (vpos : linecol) (e : expr) (x : sst) : cres sst :=
  let* (g, l) := compile_assignment v vpos e (s_gen x, snd x) in COk (set_gen g (fst x), l).

(** Evaluates a condition into a temporary: top.rs 497-508, 638-645, 687-699, 734-741. *)
Definition guard_expr (e : expr) (x : sst) : cres (N * sst) :=
  let st := freeze x in
  let* sc := open_scope (snd x) st in
  let* (r, sc, st) := alloc sc (start_pos e) st in
  let* st := compile_expr_as_type (snd x) e r TBoolean st in
  COk (r, unfreeze x (close sc st)).

(** A jump target for an instruction to be patched: [u16::try_from] with the error at [pos]. *)
Definition target_at (a : nat) (pos : linecol) : cres N := make_target a pos.

(** Patches several placeholders with jumps to [target]. *)
Fixpoint patch_jumps (l : list (nat * linecol)) (target : nat) (x : sst) : cres sst :=
  match l with
  | [] => COk x
  | (a, pos) :: l' =>
      let* t := target_at target pos in patch_jumps l' target (s_patch a (IJump t) x)
  end.

(** A block of statements, compiled. *)
Definition block := sst -> cres sst.

(** top.rs 727-757. *)
Definition compile_while (e : expr) (body : block) (x : sst) : cres sst :=
  let start := s_pc x in
  let pos := start_pos e in
  let* (r, x) := guard_expr e x in
  let jump := s_pc x in
  let* x := body (s_emit INop pos x) in
  let* t := target_at start pos in
  let x := s_emit (IJump t) pos x in
  let* t := target_at (s_pc x) pos in
  COk (s_patch jump (IJumpIfFalse r t) x).

(** top.rs 495-603. *)
Definition compile_do (g : do_guard) (body : block) (x : sst) : cres sst :=
  let x := (set_do ([] :: t_do (fst x)) (fst x), snd x) in
  let start := s_pc x in
  let* x :=
    match g with
    | GInfinite =>
        let* x := body x in
        let* t := target_at start (0, 0) in
        COk (s_emit (IJump t) (0, 0) x)
    | GPreUntil e =>
        let pos := start_pos e in
        let* (r, x) := guard_expr e x in
        let jump_body := s_pc x in
        let x := s_emit INop pos x in
        let jump_end := s_pc x in
        let x := s_emit INop pos x in
        let* t := target_at (s_pc x) pos in
        let x := s_patch jump_body (IJumpIfFalse r t) x in
        let* x := body x in
        let* t := target_at start pos in
        let x := s_emit (IJump t) pos x in
        let* t := target_at (s_pc x) pos in
        COk (s_patch jump_end (IJump t) x)
    | GPreWhile e => compile_while e body x
    | GPostUntil e =>
        let* x := body x in
        let* (r, x) := guard_expr e x in
        let* t := target_at start (start_pos e) in
        COk (s_emit (IJumpIfFalse r t) (start_pos e) x)
    | GPostWhile e =>
        let pos := start_pos e in
        let* x := body x in
        let* (r, x) := guard_expr e x in
        let jump_end := s_pc x in
        let x := s_emit INop pos x in
        let* t := target_at start pos in
        let x := s_emit (IJump t) pos x in
        let* t := target_at (s_pc x) pos in
        COk (s_patch jump_end (IJumpIfFalse r t) x)
    end in
  match t_do (fst x) with
  | [] => CPanic
  | exits :: rest => patch_jumps exits (s_pc x) (set_do rest (fst x), snd x)
  end.

(** top.rs 607-629: an iterator that does not exist yet and steps by a double is a double. *)
Definition for_iterator (iter : varref) (iter_pos : linecol) (iter_double : bool) (x : sst)
  : cres sst :=
  if iter_double && match vr_type iter with None => true | Some _ => false end then
    match get_local_or_global (snd x) iter with
    | Ok _ => COk x
    | Err (SeUndefined _ _) =>
        let key := symkey (vr_name iter) in
        match get_callable (ls_global (snd x)) key with
        | Some _ => CErr (CeAlreadyDefined iter_pos iter)
        | None =>
            match put_local (snd x) key (PScalar TDouble) with
            | None => CPanic
            | Some (_, Err e) => CErr (from_syms e iter_pos)
            | Some (l, Ok _) => COk (fst x, l)
            end
        end
    | Err e => CErr (from_syms e iter_pos)
    end
  else COk x.

(** top.rs 606-676. *)
Definition compile_for (iter : varref) (iter_pos : linecol) (iter_double : bool)
    (start end_ next : expr) (body : block) (x : sst) : cres sst :=
  let* x := for_iterator iter iter_pos iter_double x in
  let* x := s_assignment iter iter_pos start x in
  let start_pc := s_pc x in
  let pos := start_pos end_ in
  let* (r, x) := guard_expr end_ x in
  let jump_end := s_pc x in
  let x := s_emit INop pos x in
  let x := (set_gen (mark_statement_start start_pc (s_gen x)) (fst x), snd x) in
  let x := (set_for ([] :: t_for (fst x)) (fst x), snd x) in
  let* x := body x in
  let* x := s_assignment iter iter_pos next x in
  let* t := target_at start_pc pos in
  let x := s_emit (IJump t) pos x in
  let end_addr := s_pc x in
  let* t := target_at end_addr pos in
  let x := s_patch jump_end (IJumpIfFalse r t) x in
  match t_for (fst x) with
  | [] => CPanic
  | exits :: rest => patch_jumps exits end_addr (set_for rest (fst x), snd x)
  end.

(** top.rs 683-714: the branches, with the placeholders to jump to the end. *)
Fixpoint compile_branches (branches : list (expr * block)) (ends : list nat) (x : sst)
  : cres (list nat * sst) :=
  match branches with
  | [] => COk (ends, x)
  | (e, body) :: rest =>
      let pos := start_pos e in
      let* (r, x) := guard_expr e x in
      let jump := s_pc x in
      let* x := body (s_emit INop pos x) in
      let '(ends, x) :=
        match rest with
        | [] => (ends, x)
        | _ => (ends ++ [s_pc x], s_emit INop pos x)
        end in
      let* t := target_at (s_pc x) pos in
      compile_branches rest ends (s_patch jump (IJumpIfFalse r t) x)
  end.

(** top.rs 679-724. *)
Definition compile_if (branches : list (expr * block)) (x : sst) : cres sst :=
  let* (ends, x) := compile_branches branches [] x in
  patch_jumps (map (fun a => (a, (0, 0))) ends) (s_pc x) x.

(** top.rs 227-236: the name of a relational operator in an error. *)
Definition relop_name (o : case_relop) : binop :=
  match o with
  | REqual => BEqual | RNotEqual => BNotEqual | RLess => BLess | RLessEqual => BLessEqual
  | RGreater => BGreater | RGreaterEqual => BGreaterEqual
  end.

(** top.rs 239-280. *)
Definition case_relop_instr (o : case_relop) (t : etype) : option op3 :=
  match t, o with
  | TBoolean, REqual => Some EqualBoolean
  | TBoolean, RNotEqual => Some NotEqualBoolean
  | TBoolean, _ => None
  | TDouble, REqual => Some EqualDouble
  | TDouble, RNotEqual => Some NotEqualDouble
  | TDouble, RLess => Some LessDouble
  | TDouble, RLessEqual => Some LessEqualDouble
  | TDouble, RGreater => Some GreaterDouble
  | TDouble, RGreaterEqual => Some GreaterEqualDouble
  | TInteger, REqual => Some EqualInteger
  | TInteger, RNotEqual => Some NotEqualInteger
  | TInteger, RLess => Some LessInteger
  | TInteger, RLessEqual => Some LessEqualInteger
  | TInteger, RGreater => Some GreaterInteger
  | TInteger, RGreaterEqual => Some GreaterEqualInteger
  | TText, REqual => Some EqualText
  | TText, RNotEqual => Some NotEqualText
  | TText, RLess => Some LessText
  | TText, RLessEqual => Some LessEqualText
  | TText, RGreater => Some GreaterText
  | TText, RGreaterEqual => Some GreaterEqualText
  end.

(** top.rs 283-316. *)
Definition compile_case_relop (pos : linecol) (test_reg : N) (test_type : etype) (rhs_reg : N)
    (rhs_type : etype) (o : case_relop) (dest : N) (g : codegen) : cres codegen :=
  let '(g, op) :=
    match test_type, rhs_type with
    | TDouble, TInteger => (emit (I1 IntegerToDouble rhs_reg) pos g, case_relop_instr o TDouble)
    | TInteger, TDouble => (emit (I1 IntegerToDouble test_reg) pos g, case_relop_instr o TDouble)
    | _, _ =>
        (g, if etype_eqb test_type rhs_type then case_relop_instr o test_type else None)
    end in
  match op with
  | Some op => COk (emit (I3 op dest test_reg rhs_reg) pos g)
  | None => CErr (CeBinaryOpType pos (relop_name o) test_type rhs_type)
  end.

(** top.rs 335-344, 363-372, 374-383: compares the test value against an expression. *)
Definition case_compare (l : lsyms) (pos : linecol) (test_reg : N) (test_type : etype) (e : expr)
    (o : case_relop) (lhs rhs cond : N) (st : est) : cres est :=
  let st := e_emit (IMove lhs test_reg) pos st in
  let* (st, rt) := compile_expr l e rhs st in
  let* g := compile_case_relop pos lhs test_type rhs rt o cond (fst st) in
  COk (g, snd st).

(** top.rs 319-389. *)
Definition compile_case_guard (l : lsyms) (test_reg : N) (test_type : etype) (guard : case_guard)
    (st : est) : cres (N * linecol * est) :=
  match guard with
  | CIs o e =>
      let pos := start_pos e in
      let* s := open_scope l st in
      let* (lhs, s, st) := alloc s pos st in
      let* (rhs, s, st) := alloc s pos st in
      let* (cond, s, st) := alloc s pos st in
      let* st := case_compare l pos test_reg test_type e o lhs rhs cond st in
      COk (cond, pos, close s st)
  | CTo from to =>
      let pos := start_pos from in
      let* s := open_scope l st in
      let* (lhs1, s, st) := alloc s pos st in
      let* (rhs1, s, st) := alloc s pos st in
      let* (cond1, s, st) := alloc s pos st in
      let* (lhs2, s, st) := alloc s pos st in
      let* (rhs2, s, st) := alloc s pos st in
      let* (cond2, s, st) := alloc s pos st in
      let* (cond, s, st) := alloc s pos st in
      let* st := case_compare l pos test_reg test_type from RGreaterEqual lhs1 rhs1 cond1 st in
      let* st := case_compare l pos test_reg test_type to RLessEqual lhs2 rhs2 cond2 st in
      COk (cond, pos, close s (e_emit (I3 BitwiseAnd cond cond1 cond2) pos st))
  end.

Definition e_patch (a : nat) (i : instr) (st : est) : est := (patch a i (fst st), snd st).

(** top.rs 432-446: the guards of one case, with the placeholders to jump to its body. *)
Fixpoint case_guards (l : lsyms) (test_reg : N) (test_type : etype) (guards : list case_guard)
    (jumps : list (nat * linecol)) (st : est) : cres (list (nat * linecol) * est) :=
  match guards with
  | [] => COk (jumps, st)
  | guard :: rest =>
      let* (cond, pos, st) := compile_case_guard l test_reg test_type guard st in
      let jump_next := next_pc (fst st) in
      let st := e_emit INop pos st in
      let jump_body := next_pc (fst st) in
      let st := e_emit INop pos st in
      let* t := target_at (next_pc (fst st)) pos in
      case_guards l test_reg test_type rest (jumps ++ [(jump_body, pos)])
        (e_patch jump_next (IJumpIfFalse cond t) st)
  end.

(** Patches the jump to the next case, if there is one pending. *)
Definition patch_next (next : option (nat * linecol)) (target : nat) (st : est) : cres est :=
  match next with
  | None => COk st
  | Some (a, pos) => let* t := target_at target pos in COk (e_patch a (IJump t) st)
  end.

(** top.rs 418-453: the dispatch code; returns the pending cases and the pending jump. *)
Fixpoint select_dispatch (l : lsyms) (test_reg : N) (test_type : etype) (end_pos : linecol)
    (cases : list (list case_guard * block)) (next : option (nat * linecol))
    (pend : list (block * list (nat * linecol) * bool)) (st : est)
  : cres (list (block * list (nat * linecol) * bool) * option (nat * linecol) * est) :=
  match cases with
  | [] => COk (pend, next, st)
  | (guards, body) :: rest =>
      let has_next := match rest with [] => false | _ => true end in
      let* st := patch_next next (next_pc (fst st)) st in
      match guards with
      | [] =>
          let jump_body := next_pc (fst st) in
          select_dispatch l test_reg test_type end_pos rest None
            (pend ++ [(body, [(jump_body, end_pos)], has_next)]) (e_emit INop end_pos st)
      | _ =>
          let* (jumps, st) := case_guards l test_reg test_type guards [] st in
          let jump_next := next_pc (fst st) in
          select_dispatch l test_reg test_type end_pos rest (Some (jump_next, end_pos))
            (pend ++ [(body, jumps, has_next)]) (e_emit INop end_pos st)
      end
  end.

(** top.rs 466-482: the bodies. *)
Fixpoint select_bodies (end_pos : linecol) (pend : list (block * list (nat * linecol) * bool))
    (ends : list nat) (x : sst) : cres (list nat * sst) :=
  match pend with
  | [] => COk (ends, x)
  | (body, jumps, has_next) :: rest =>
      let* x := patch_jumps jumps (s_pc x) x in
      let* x := body x in
      if (has_next : bool) then
        select_bodies end_pos rest (ends ++ [s_pc x]) (s_emit INop end_pos x)
      else select_bodies end_pos rest ends x
  end.

(** top.rs 392-492. *)
Definition compile_select (e : expr) (cases : list (list case_guard * block)) (end_pos : linecol)
    (x : sst) : cres sst :=
  let* (test_reg, l) := of_syms (start_pos e) (reserve_temp (snd x)) in
  let* (st, test_type) := compile_expr l e test_reg (s_gen x, frozen l) in
  let* (pend, next, st) := select_dispatch l test_reg test_type end_pos cases None [] st in
  let x := (set_gen (fst st) (fst x), release_temp (thaw l (snd st))) in
  let dispatch_end := s_pc x in
  let x := s_emit INop end_pos x in
  let* x := match next with
            | None => COk x
            | Some (a, pos) =>
                let* t := target_at dispatch_end pos in COk (s_patch a (IJump t) x)
            end in
  let* (ends, x) := select_bodies end_pos pend [] x in
  let* t := target_at (s_pc x) end_pos in
  let x := s_patch dispatch_end (IJump t) x in
  COk (fold_left (fun x a => s_patch a (IJump t) x) ends x).

(** top.rs 1085-1114. *)
Fixpoint param_syntaxes (params : list varref) : list singular_syntax :=
  match params with
  | [] => []
  | p :: rest =>
      RequiredValue (vr_name p) (match vr_type p with Some t => t | None => TInteger end)
        (match rest with [] => SepEndOnly | _ => SepExactly SepLong end) :: param_syntaxes rest
  end.
Definition user_md (name : varref) (params : list varref) : callable_md :=
  mkMd (vr_name name) (vr_type name) false [mkSyntax (param_syntaxes params) None] true.
Definition declare_callable (name : varref) (pos : linecol) (params : list varref) (l : lsyms)
  : cres lsyms :=
  match declare_user (ls_global l) name (user_md name params) with
  | Ok g => COk (mkLsyms g (ls_locals l) (ls_count_temps l) (ls_active_temps l))
  | Err e => CErr (from_syms e pos)
  end.

(** top.rs 1161-1169. *)
Fixpoint define_params (params : list varref) (pos : linecol) (l : lsyms) : cres lsyms :=
  match params with
  | [] => COk l
  | p :: rest =>
      match put_local l (symkey (vr_name p))
              (PScalar (match vr_type p with Some t => t | None => TInteger end)) with
      | None => CPanic
      | Some (_, Err e) => CErr (from_syms e pos)
      | Some (l, Ok _) => define_params rest pos l
      end
  end.

(** top.rs 1143-1160: the return value of a function and its default. *)
Definition define_result (name : varref) (key : ustr) (pos : linecol) (x : sst) : cres sst :=
  match vr_type name with
  | None => COk x
  | Some t =>
      match put_local (snd x) key (PScalar t) with
      | None => CPanic
      | Some (_, Err e) => CErr (from_syms e pos)
      | Some (l, Ok ret) =>
          let* (g, value) :=
            match t with
            | TBoolean | TInteger => COk (s_gen x, 0)
            | TDouble => get_constant (CDouble 0) pos (s_gen x)
            | TText => get_constant (CText []) pos (s_gen x)
            end in
          COk (set_gen (emit (ILoadInteger ret value) pos g) (fst x), l)
      end
  end.

(** top.rs 1117-1190: compiles into its own scope; the caller's locals are untouched. *)
Definition compile_user_callable (name : varref) (name_pos : linecol) (params : list varref)
    (body : block) (end_pos : linecol) (x : sst) : cres sst :=
  match t_current (fst x) with
  | Some _ => CErr (CeCannotNest name_pos)
  | None =>
      let outer := snd x in
      let skip := s_pc x in
      let x := s_emit INop name_pos x in
      let start := s_pc x in
      let key := symkey (vr_name name) in
      let kind := match vr_type name with Some _ => KFunction | None => KSub end in
      let x := (set_current (Some kind) (fst x), enter_scope (ls_global outer)) in
      let* x := define_result name key name_pos x in
      let* l := define_params params name_pos (snd x) in
      let* x := body (fst x, l) in
      let return_addr := s_pc x in
      let x := s_emit IReturn end_pos x in
      let* x := patch_jumps (t_exits (fst x)) return_addr x in
      let c := set_current None (set_exits [] (fst x)) in
      let skip_addr := next_pc (t_gen c) in
      let c := set_gen (define_user_callable key start skip_addr (t_gen c)) c in
      let* t := target_at skip_addr end_pos in
      let c := set_gen (patch skip (IJump t) (t_gen c)) c in
      COk (c, mkLsyms (ls_global (snd x)) (ls_locals outer) (ls_count_temps outer)
                (ls_active_temps outer))
  end.

(** top.rs 850-862. *)
Definition compile_callable (name : varref) (name_pos : linecol) (params : list varref)
    (body : block) (end_pos : linecol) (x : sst) : cres sst :=
  let* l := declare_callable name name_pos params (snd x) in
  let key := symkey (vr_name name) in
  if existsb (ustr_eqb key) (t_defined (fst x)) then CErr (CeAlreadyDefined name_pos name)
  else
    let* x := compile_user_callable name name_pos params body end_pos (fst x, l) in
    let c := fst x in
    COk (mkTctx (t_gen c) (t_data c) (t_do c) (t_for c) (t_current c) (key :: t_defined c)
           (t_exits c), snd x).

(** top.rs 768-809. *)
Definition compile_array_assignment (v : varref) (vpos : linecol) (subs : list expr) (e : expr)
    (x : sst) : cres sst :=
  let l := snd x in
  let* (arr, t, ndims) :=
    match get_local_or_global l v with
    | Ok (r, PArray t ndims) => COk (r, t, ndims)
    | Ok (_, PScalar _) => CErr (CeNotAnArray vpos v)
    | Err (SeUndefined _ _) => CErr (CeNotAnArray vpos v)
    | Err e => CErr (from_syms e vpos)
    end in
  if negb (Nat.eqb (length subs) ndims) then
    CErr (CeWrongNumberOfSubscripts vpos ndims (length subs))
  else
    let st := freeze x in
    let* s := open_scope l st in
    let* (val, s, st) := alloc s vpos st in
    let* st := compile_expr_as_type l e val t st in
    let* (first, s, st) :=
      integer_exprs (map (fun e => Some (e, compile_expr l e)) subs) s vpos None st in
    match first with
    | None => CPanic
    | Some f => COk (unfreeze x (close s (e_emit (I3 StoreArray arr val f) vpos st)))
    end.

(** top.rs 815-848. *)
Definition compile_call_stmt (v : varref) (vpos : linecol) (args : list argspan) (x : sst)
  : cres sst :=
  let key := symkey (vr_name v) in
  match get_callable (ls_global (snd x)) key with
  | None => CErr (CeUndefinedSymbol vpos v)
  | Some md =>
      match md_return md with
      | Some _ => CErr (CeNotAFunction vpos v)
      | None =>
          let* (g, l) := define_new_args md vpos args (s_gen x, snd x) in
          let x := (set_gen g (fst x), l) in
          let* (st, first, lcs) := compile_args l md vpos (map (with_closure l) args) (freeze x) in
          let x := unfreeze x st in
          let* g :=
            if md_user md then
              let a := s_pc x in
              COk (add_fixup a (FxCall first key) (set_arg_linecols a lcs (emit INop vpos (s_gen x))))
            else
              let* (g, idx) := get_upcall key None vpos (s_gen x) in
              COk (set_arg_linecols (next_pc g) lcs (emit (upcall_instr md idx first) vpos g)) in
          COk (set_gen g (fst x), snd x)
      end
  end.

(** The register of a variable that DIM defines: top.rs 880-904 and 913-938. *)
Definition dim_register (name : ustr) (pos : linecol) (shared : bool) (p : proto) (l : lsyms)
  : cres (N * lsyms) :=
  let key := symkey name in
  let defined := CErr (CeAlreadyDefined pos (mkVarRef name None)) in
  match get_callable (ls_global l) key with
  | Some _ => defined
  | None =>
      let put :=
        if shared then
          if contains_global (ls_global l) key then None else Some (ls_put_global l key p)
        else
          if contains_local l key then None else Some (put_local l key p) in
      match put with
      | None => defined
      | Some None => CPanic
      | Some (Some (_, Err e)) => CErr (from_syms e pos)
      | Some (Some (l, Ok r)) => COk (r, l)
      end
  end.

(** top.rs 876-906. *)
Definition compile_dim (name : ustr) (pos : linecol) (shared : bool) (t : etype) (x : sst)
  : cres sst :=
  let* (r, l) := dim_register name pos shared (PScalar t) (snd x) in
  COk (set_gen (emit_default r t pos (s_gen x)) (fst x), l).

(** top.rs 908-953. *)
Definition compile_dim_array (name : ustr) (pos : linecol) (shared : bool) (dims : list expr)
    (t : etype) (x : sst) : cres sst :=
  let ndims := length dims in
  let* (r, l) := dim_register name pos shared (PArray t ndims) (snd x) in
  let x := (fst x, l) in
  let st := freeze x in
  let* s := open_scope l st in
  let* (first, s, st) :=
    integer_exprs (map (fun e => Some (e, compile_expr l e)) dims) s pos None st in
  match first with
  | None => CPanic
  | Some f =>
      match packed_new t (N.of_nat ndims) with
      | None => CErr (CeTooManyDimensions pos ndims)
      | Some p => COk (unfreeze x (close s (e_emit (IAllocArray r p f) pos st)))
      end
  end.

(** top.rs 959-985. *)
Definition compile_end (code : option expr) (pos : linecol) (x : sst) : cres sst :=
  let* _ :=
    match code with
    | Some e =>
        match static_end_code e with
        | Some (z, code_pos) =>
            match exit_code_try_new z with
            | Some _ => COk tt
            | None => CErr (CeInvalidEndCode code_pos)
            end
        | None => COk tt
        end
    | None => COk tt
    end in
  let st := freeze x in
  let* s := open_scope (snd x) st in
  let* (r, s, st) := alloc s pos st in
  let* st :=
    match code with
    | Some e => compile_expr_as_type (snd x) e r TInteger st
    | None => COk (e_emit (ILoadInteger r 0) pos st)
    end in
  COk (unfreeze x (close s (e_emit (I1 EndOp r) pos st))).

(** top.rs 987-1017. *)
Definition compile_exit_do (pos : linecol) (x : sst) : cres sst :=
  match t_do (fst x) with
  | [] => CErr (CeMisplacedExit pos ExitDo)
  | top :: rest =>
      let a := s_pc x in
      let x := s_emit INop pos x in
      COk (set_do ((top ++ [(a, pos)]) :: rest) (fst x), snd x)
  end.
Definition compile_exit_for (pos : linecol) (x : sst) : cres sst :=
  match t_for (fst x) with
  | [] => CErr (CeMisplacedExit pos ExitFor)
  | top :: rest =>
      let a := s_pc x in
      let x := s_emit INop pos x in
      COk (set_for ((top ++ [(a, pos)]) :: rest) (fst x), snd x)
  end.
Definition ckind_eqb (a b : ckind) : bool :=
  match a, b with KFunction, KFunction | KSub, KSub => true | _, _ => false end.
Definition compile_exit_callable (k : ckind) (e : exit_kind) (pos : linecol) (x : sst) : cres sst :=
  if match t_current (fst x) with Some k' => ckind_eqb k k' | None => false end then
    let a := s_pc x in
    let x := s_emit INop pos x in
    COk (set_exits (t_exits (fst x) ++ [(a, pos)]) (fst x), snd x)
  else CErr (CeMisplacedExit pos e).

(** A placeholder with a fixup: top.rs 1023-1031, 1050-1053. *)
Definition emit_fixup (f : fixup) (pos : linecol) (x : sst) : sst :=
  (set_gen (add_fixup (s_pc x) f (emit INop pos (s_gen x))) (fst x), snd x).

(** top.rs 864-866. *)
Fixpoint data_values (l : list (option expr)) : cres (list (option cdatum)) :=
  match l with
  | [] => COk []
  | None :: r => let* r := data_values r in COk (None :: r)
  | Some e :: r =>
      match data_constant e with
      | Some d => let* r := data_values r in COk (Some d :: r)
      | None => CPanic
      end
  end.
Definition compile_data (values : list (option expr)) (x : sst) : cres sst :=
  let* vs := data_values values in
  let c := fst x in
  COk (mkTctx (t_gen c) (t_data c ++ vs) (t_do c) (t_for c) (t_current c) (t_defined c) (t_exits c),
       snd x).

(** top.rs 868-874. *)
Definition compile_declare (name : varref) (pos : linecol) (params : list varref) (x : sst)
  : cres sst :=
  match t_current (fst x) with
  | Some _ => CErr (CeCannotNest pos)
  | None => let* l := declare_callable name pos params (snd x) in COk (fst x, l)
  end.

(** top.rs 1033-1038. *)
Definition compile_label (name : ustr) (pos : linecol) (x : sst) : cres sst :=
  let '(g, fresh) := define_label (symkey name) (s_pc x) (s_gen x) in
  if (fresh : bool) then COk (set_gen g (fst x), snd x) else CErr (CeDuplicateLabel pos name).

(** top.rs 1048-1065. *)
Definition compile_on_error (o : on_error) (x : sst) : sst :=
  match o with
  | OnGoto target _ pos => emit_fixup (FxOnErrorGoto target) pos x
  | OnReset pos => s_emit (ISetErrorHandler EhNone 0) pos x
  | OnResumeNext pos => s_emit (ISetErrorHandler EhResumeNext 0) pos x
  end.

(** top.rs 766, 851, 869, 1034: statements whose start is not marked. *)
Definition marks_start (s : stmt) : bool :=
  match s with
  | StCallable _ _ _ _ _ | StDeclare _ _ _ | StLabel _ _ => false
  | _ => true
  end.

(** top.rs 765, 1075-1077. *)
Definition mark_from (s : stmt) (start : nat) (x : sst) : sst :=
  if marks_start s && negb (Nat.eqb start (s_pc x)) then
    (set_gen (mark_statement_start start (s_gen x)) (fst x), snd x)
  else x.

(** top.rs 760-1079. *)
Fixpoint compile_stmt (s : stmt) (x : sst) {struct s} : cres sst :=
  let go :=
    fix go (l : list stmt) (x : sst) {struct l} : cres sst :=
      match l with
      | [] => COk x
      | s :: l' => let* x := compile_stmt s x in go l' x
      end in
  let* x' :=
    match s with
    | StArrayAssignment v vpos subs e => compile_array_assignment v vpos subs e x
    | StAssignment v vpos e => s_assignment v vpos e x
    | StCall v vpos args => compile_call_stmt v vpos args x
    | StCallable name name_pos params body end_pos =>
        compile_callable name name_pos params (go body) end_pos x
    | StData values => compile_data values x
    | StDeclare name name_pos params => compile_declare name name_pos params x
    | StDim name pos shared t => compile_dim name pos shared t x
    | StDimArray name pos shared dims t => compile_dim_array name pos shared dims t x
    | StDo g body => compile_do g (go body) x
    | StEnd code pos => compile_end code pos x
    | StExitDo pos => compile_exit_do pos x
    | StExitFor pos => compile_exit_for pos x
    | StExitFunction pos => compile_exit_callable KFunction ExitFunction pos x
    | StExitSub pos => compile_exit_callable KSub ExitSub pos x
    | StFor iter iter_pos iter_double start end_ next body =>
        compile_for iter iter_pos iter_double start end_ next (go body) x
    | StGosub target pos => COk (emit_fixup (FxGosub target) pos x)
    | StGoto target pos => COk (emit_fixup (FxGoto target) pos x)
    | StIf branches => compile_if (map (fun b => match b with (e, body) => (e, go body) end) branches) x
    | StLabel name pos => compile_label name pos x
    | StOnError o => COk (compile_on_error o x)
    | StReturn pos => COk (s_emit IReturn pos x)
    | StSelect e cases end_pos =>
        compile_select e (map (fun c => match c with (guards, body) => (guards, go body) end) cases)
          end_pos x
    | StWhile e body => compile_while e (go body) x
    end in
  COk (mark_from s (s_pc x) x').

Fixpoint compile_stmts (l : list stmt) (x : sst) {struct l} : cres sst :=
  match l with
  | [] => COk x
  | s :: l' => let* x := compile_stmt s x in compile_stmts l' x
  end.

(** What the parser delivers: statements one by one, possibly ending in an error.  Statements
    before the error are compiled first, and their errors win. *)
Definition source := (list stmt * option cerror)%type.

(** syms.rs 268-285, 291-304: what lookups of variables from outside use. *)
Definition var_infos (t : symtab) (mk : N -> option N) : list (ustr * (N * proto)) :=
  flat_map (fun e => match mk (snd (snd e)) with
                     | Some r => [(fst e, (r, fst (snd e)))]
                     | None => []
                     end) t.

(** The statements of the input in order: the state after the last one that compiled, and the
    error of the one that did not.  What a failing statement itself leaves behind is not
    modelled; nothing reads it. *)
Fixpoint compile_input (l : list stmt) (x : sst) : sst * cres unit :=
  match l with
  | [] => (x, COk tt)
  | s :: l' =>
      match compile_stmt s x with
      | COk x' => compile_input l' x'
      | CErr e => (x, CErr e)
      | CPanic => (x, CPanic)
      end
  end.

(** top.rs 1323-1359: the state it works on and the image delta. *)
Definition compile_source (src : source) (img : cimage) (c : tctx) (l : lsyms)
  : (tctx * lsyms) * cres cimage :=
  let c := set_gen (pop_eof (t_gen c)) c in
  let '((c, l), r) := compile_input (fst src) (c, l) in
  match r with
  | CErr e => ((c, l), CErr e)
  | CPanic => ((c, l), CPanic)
  | COk _ =>
      match snd src with
      | Some e => ((c, l), CErr e)
      | None =>
          let c := set_gen (emit IEof (0, 0) (t_gen c)) c in
          match build_image_delta img (var_infos (gs_vars (ls_global l)) register_global)
                  (var_infos (ls_locals l) register_local) (t_data c) (t_gen c) with
          | COk (g, delta) => ((set_gen g c, l), COk delta)
          | CErr e => ((c, l), CErr e)
          | CPanic => ((c, l), CPanic)
          end
      end
  end.

(** mod.rs 217-221; the global table and the snapshot of the program's scope are one [lsyms]. *)
Record compiler := mkCompiler { k_ctx : tctx; k_syms : lsyms }.

(** top.rs 1205-1237. *)
Inductive global_kind :=
| GkScalar (t : etype) (init : option cdatum)
| GkArray (t : etype) (dims : list nat).
Definition global_def := (ustr * global_kind)%type.

(** top.rs 1257-1286. *)
Fixpoint register_globals (defs : list global_def) (arrays : list (N * (etype * list nat)))
    (s : codegen * gsyms) : cres (list (N * (etype * list nat)) * (codegen * gsyms)) :=
  match defs with
  | [] => COk (arrays, s)
  | (name, k) :: rest =>
      let p := match k with GkScalar t _ => PScalar t | GkArray t dims => PArray t (length dims) end in
      let* _ :=
        match k with
        | GkArray _ dims => if Nat.ltb 255 (length dims) then CPanic else COk tt
        | _ => COk tt
        end in
      match put_global (snd s) (symkey name) p with
      | None => CPanic
      | Some (_, Err e) => CErr (from_syms e (0, 0))
      | Some (gs, Ok reg) =>
          match k with
          | GkArray t dims => register_globals rest (arrays ++ [(reg, (t, dims))]) (fst s, gs)
          | GkScalar t init =>
              let* g :=
                match init with
                | Some d =>
                    if etype_eqb (cdatum_etype d) t then emit_value reg d (0, 0) (fst s)
                    else CErr (CeTypeMismatch (0, 0) (cdatum_etype d) t)
                | None => COk (emit_default reg t (0, 0) (fst s))
                end in
              register_globals rest arrays (g, gs)
          end
      end
  end.

(** top.rs 1303-1309: the dimensions, in local registers. *)
Fixpoint load_dims (dims : list nat) (i : N) (g : codegen) : cres codegen :=
  match dims with
  | [] => COk g
  | d :: rest =>
      if N.of_nat d <? 65536 then
        match register_local i with
        | Some r => load_dims rest (i + 1) (emit (ILoadInteger r (N.of_nat d)) (0, 0) g)
        | None => CPanic
        end
      else CPanic
  end.

(** top.rs 1297-1315. *)
Fixpoint alloc_globals (arrays : list (N * (etype * list nat))) (g : codegen) : cres codegen :=
  match arrays with
  | [] => COk g
  | (reg, (t, dims)) :: rest =>
      let* g := load_dims dims 0 g in
      match packed_new t (N.of_nat (length dims)) with
      | None => CErr (CeTooManyDimensions (0, 0) (length dims))
      | Some p => alloc_globals rest (emit (IAllocArray reg p 64) (0, 0) g)
      end
  end.

(** top.rs 1247-1320. *)
Definition prepare_globals (defs : list global_def) (g : codegen) (gs : gsyms)
  : cres (codegen * gsyms) :=
  let* (arrays, (g, gs)) := register_globals defs [] (g, gs) in
  let* g := alloc_globals arrays g in
  COk (emit IEof (0, 0) g, gs).

(** mod.rs 229-244. *)
Definition compiler_new (upcalls : list (ustr * callable_md)) (defs : list global_def)
  : cres compiler :=
  let* (g, gs) := prepare_globals defs codegen_new (gs_new upcalls) in
  COk (mkCompiler (set_gen g tctx_new) (enter_scope gs)).

(** mod.rs 254-264: compiles on clones of the compiler's state; the compiler and the image are
    assigned at the end.  The outcome of a call is the result and both states after it. *)
Inductive outcome := Compiled | Failed (e : cerror) | Crashed.
Definition compile_more (k : compiler) (img : cimage) (src : source)
  : outcome * compiler * cimage :=
  let new_ctx := k_ctx k in
  let new_syms := k_syms k in
  let '((new_ctx, new_syms), r) := compile_source src img new_ctx new_syms in
  match r with
  | CErr e => (Failed e, k, img)
  | CPanic => (Crashed, k, img)
  | COk delta =>
      let img := image_append img delta in
      (Compiled, mkCompiler new_ctx new_syms, img)
  end.

(** mod.rs 247-251. *)
Definition compile_new (upcalls : list (ustr * callable_md)) (defs : list global_def)
    (src : source) : outcome * cimage :=
  match compiler_new upcalls defs with
  | COk k => let '(o, _, img) := compile_more k cimage_default src in (o, img)
  | CErr e => (Failed e, cimage_default)
  | CPanic => (Crashed, cimage_default)
  end.
