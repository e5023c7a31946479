(** Syntax trees (core/src/ast.rs) and callable metadata (core/src/callable.rs). *)
From Verif Require Import Base Bytecode_Model Vm_Model.

(** ast.rs 256-263: [VarRef]. *)
Record varref := mkVarRef { vr_name : ustr; vr_type : option etype }.

Definition etype_eqb (a b : etype) : bool := (etype_code a =? etype_code b)%N.
Definition etype_dec : forall a b : etype, {a = b} + {a <> b}.
Proof. decide equality. Defined.

(** ast.rs 278-283, 286-294. *)
Definition accepts (v : varref) (t : etype) : bool :=
  match vr_type v with None => true | Some t' => etype_eqb t' t end.
Definition accepts_callable (v : varref) (t : option etype) : bool :=
  match vr_type v with
  | None => true
  | Some t' => match t with Some t => etype_eqb t' t | None => false end
  end.

(** ast.rs 230-232. *)
Definition is_numerical (t : etype) : bool :=
  match t with TDouble | TInteger => true | _ => false end.

(** ast.rs 98-155: the operators of [Expr]. *)
Inductive binop :=
| BAdd | BSubtract | BMultiply | BDivide | BModulo | BPower
| BEqual | BNotEqual | BLess | BLessEqual | BGreater | BGreaterEqual
| BAnd | BOr | BXor | BShiftLeft | BShiftRight.
Inductive unop := UNegate | UNot.

(** ast.rs 98-155, 361-386: [Expr], [ArgSpan] and [CallSpan].  Binary and unary operators are
    grouped; an argument is (expression, separator, separator position). *)
Inductive expr :=
| EBoolean (b : bool) (pos : linecol)
| EDouble (bits : N) (pos : linecol)
| EInteger (z : Z) (pos : linecol)
| EText (s : ustr) (pos : linecol)
| ESymbol (v : varref) (pos : linecol)
| EBinary (o : binop) (lhs rhs : expr) (pos : linecol)
| EUnary (o : unop) (e : expr) (pos : linecol)
| ECall (v : varref) (vpos : linecol) (args : list (option expr * argsep * linecol)).

Definition argspan := (option expr * argsep * linecol)%type.

(** ast.rs 159-194. *)
Fixpoint start_pos (e : expr) : linecol :=
  match e with
  | EBoolean _ p | EDouble _ p | EInteger _ p | EText _ p | ESymbol _ p | EUnary _ _ p => p
  | ECall _ p _ => p
  | EBinary _ l _ _ => start_pos l
  end.

(** ast.rs 511-533, 657-697. *)
Inductive do_guard :=
| GInfinite
| GPreUntil (e : expr)
| GPreWhile (e : expr)
| GPostUntil (e : expr)
| GPostWhile (e : expr).
Inductive case_relop := REqual | RNotEqual | RLess | RLessEqual | RGreater | RGreaterEqual.
Inductive case_guard :=
| CIs (o : case_relop) (e : expr)
| CTo (from to : expr).

(** ast.rs 637-648. *)
Inductive on_error :=
| OnGoto (target : ustr) (target_pos pos : linecol)
| OnReset (pos : linecol)
| OnResumeNext (pos : linecol).

(** ast.rs 724-794: [Statement].  Positions of type names, which only the parser's own error
    messages use, are left out. *)
Inductive stmt :=
| StArrayAssignment (v : varref) (vpos : linecol) (subs : list expr) (e : expr)
| StAssignment (v : varref) (vpos : linecol) (e : expr)
| StCall (v : varref) (vpos : linecol) (args : list argspan)
| StCallable (name : varref) (name_pos : linecol) (params : list varref) (body : list stmt)
    (end_pos : linecol)
| StData (values : list (option expr))
| StDeclare (name : varref) (name_pos : linecol) (params : list varref)
| StDim (name : ustr) (name_pos : linecol) (shared : bool) (t : etype)
| StDimArray (name : ustr) (name_pos : linecol) (shared : bool) (dims : list expr) (t : etype)
| StDo (g : do_guard) (body : list stmt)
| StEnd (code : option expr) (pos : linecol)
| StExitDo (pos : linecol)
| StExitFor (pos : linecol)
| StExitFunction (pos : linecol)
| StExitSub (pos : linecol)
| StFor (iter : varref) (iter_pos : linecol) (iter_double : bool) (start end_ next : expr)
    (body : list stmt)
| StGosub (target : ustr) (pos : linecol)
| StGoto (target : ustr) (pos : linecol)
| StIf (branches : list (expr * list stmt))
| StLabel (name : ustr) (pos : linecol)
| StOnError (o : on_error)
| StReturn (pos : linecol)
| StSelect (e : expr) (cases : list (list case_guard * list stmt)) (end_pos : linecol)
| StWhile (e : expr) (body : list stmt).

(** * Callable metadata *)

(** callable.rs 250-260. *)
Inductive argsep_syntax :=
| SepExactly (s : argsep)
| SepOneOf (l : list argsep)
| SepEndOnly.

(** callable.rs 128-164, 240-247, 299-312. *)
Inductive singular_syntax :=
| RequiredValue (name : ustr) (t : etype) (sep : argsep_syntax)
| RequiredRef (name : ustr) (require_array define_undefined : bool) (sep : argsep_syntax)
| OptionalValue (name : ustr) (t : etype) (sep : argsep_syntax)
| AnyValue (name : ustr) (allow_missing : bool) (sep : argsep_syntax).

(** callable.rs 166-199. *)
Inductive repeated_type := RepAny | RepTyped (t : etype) | RepRef.
Record repeated_syntax := mkRepeated {
  rp_name : ustr;
  rp_type : repeated_type;
  rp_sep : argsep_syntax;
  rp_require_one : bool;
  rp_allow_missing : bool
}.

(** callable.rs 321-328. *)
Record callable_syntax := mkSyntax {
  sy_singular : list singular_syntax;
  sy_repeated : option repeated_syntax
}.

(** callable.rs 572-591; category and description reduce to whether it is user defined. *)
Record callable_md := mkMd {
  md_name : ustr;
  md_return : option etype;
  md_async : bool;
  md_syntaxes : list callable_syntax;
  md_user : bool
}.

Definition argsep_dec : forall a b : argsep, {a = b} + {a <> b}.
Proof. decide equality. Defined.
Definition argsep_eqb (a b : argsep) : bool := if argsep_dec a b then true else false.

(** callable.rs 572: the derived [PartialEq]. *)
Definition md_dec : forall a b : callable_md, {a = b} + {a <> b}.
Proof.
  repeat (decide equality).
Defined.

(** callable.rs 350-362: whether [expected_nargs] contains [n]. *)
Definition nargs_ok (s : callable_syntax) (n : nat) : bool :=
  let k := length (sy_singular s) in
  match sy_repeated s with
  | None => n =? k
  | Some r => (if rp_require_one r then k + 1 else k) <=? n
  end.

(** callable.rs 673-686 (the debug assertions about ambiguity are not modelled). *)
Definition find_syntax (md : callable_md) (n : nat) : option callable_syntax :=
  find (fun s => nargs_ok s n) (md_syntaxes md).

(** callable.rs 365-367, 703-706. *)
Definition syntax_is_empty (s : callable_syntax) : bool :=
  match sy_singular s, sy_repeated s with [], None => true | _, _ => false end.
Definition is_argless (md : callable_md) : bool :=
  match md_syntaxes md with
  | [] => true
  | [s] => syntax_is_empty s
  | _ => false
  end.
