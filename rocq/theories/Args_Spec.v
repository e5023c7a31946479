(** What it means for the arguments of a call to match the declaration of what is called, and for
    an expression with calls and array elements to be well-typed. *)
From Verif Require Import Base Bytecode_Model Vm_Model Ast_Model Syms_Model Syms_Spec Codegen_Model Eval_Spec.

(** A name with a type annotation only stands for things of that type. *)
Definition annotated (v : varref) (t : etype) : Prop := vr_type v = None \/ vr_type v = Some t.

(** A number fits where another kind of number is wanted; nothing else is converted. *)
Definition number (t : etype) : Prop := t = TInteger \/ t = TDouble.

(** The separator after an argument: the one that is declared, or one of those, or the end of the
    arguments where they may end.  The last parameter of a declaration without repetition admits
    anything: the number of arguments says that nothing follows. *)
Definition separated (ss : argsep_syntax) (may_end : bool) (sep : argsep) : Prop :=
  match ss with
  | SepExactly x => sep = x \/ sep = SepEnd /\ may_end = true
  | SepOneOf xs => sep = SepEnd /\ may_end = true \/ sep <> SepEnd /\ In sep xs
  | SepEndOnly => True
  end.

(** The first of the declared forms that takes this many arguments. *)
Definition takes (n : nat) (syn : callable_syntax) : Prop :=
  match sy_repeated syn with
  | None => n = length (sy_singular syn)
  | Some rp => length (sy_singular syn) <= n /\
      (rp_require_one rp = true -> length (sy_singular syn) < n)
  end.
Definition chosen (md : callable_md) (n : nat) (syn : callable_syntax) : Prop :=
  exists before after, md_syntaxes md = before ++ syn :: after /\ takes n syn /\
    forall s, In s before -> ~ takes n s.

Section Typing.
Variable ls : lsyms.

(** A variable that exists, and is an array or is not. *)
Definition refers (array : bool) (v : varref) : Prop :=
  exists r t, if array then exists n, get_local_or_global ls v = Ok (r, PArray t n)
              else get_local_or_global ls v = Ok (r, PScalar t).

Section Fits.
(** The type of each expression. *)
Variable T : expr -> etype -> Prop.

Inductive converts_to (target : etype) (e : expr) : Prop :=
| To_same : T e target -> converts_to target e
| To_number t : T e t -> number t -> number target -> converts_to target e.

(** An argument for one of the fixed parameters.  [AnyValue] parameters may be left out whether
    they are declared that way or not: see [C62_required_value_refuted]. *)
Inductive fixed_fits (may_end : bool) : singular_syntax -> argspan -> Prop :=
| Fits_value name t ss e sep pos : converts_to t e -> separated ss may_end sep ->
    fixed_fits may_end (RequiredValue name t ss) (Some e, sep, pos)
| Fits_reference name array define ss v p sep pos : refers array v -> separated ss may_end sep ->
    fixed_fits may_end (RequiredRef name array define ss) (Some (ESymbol v p), sep, pos)
| Fits_optional name t ss e sep pos : converts_to t e -> separated ss may_end sep ->
    fixed_fits may_end (OptionalValue name t ss) (Some e, sep, pos)
| Fits_optional_none name t ss sep pos : separated ss may_end sep ->
    fixed_fits may_end (OptionalValue name t ss) (None, sep, pos)
| Fits_any name allow ss e t sep pos : T e t -> separated ss may_end sep ->
    fixed_fits may_end (AnyValue name allow ss) (Some e, sep, pos)
| Fits_any_none name allow ss sep pos : separated ss may_end sep ->
    fixed_fits may_end (AnyValue name allow ss) (None, sep, pos).

(** The fixed parameters take the first arguments and leave [rest].  Only the last of them may
    end the arguments. *)
Inductive all_fixed (may_end : bool) : list singular_syntax -> list argspan -> list argspan -> Prop :=
| Fixed_none rest : all_fixed may_end [] rest rest
| Fixed_last syn a rest : fixed_fits may_end syn a -> all_fixed may_end [syn] (a :: rest) rest
| Fixed_more syn syn' syns a args rest : fixed_fits false syn a ->
    all_fixed may_end (syn' :: syns) args rest ->
    all_fixed may_end (syn :: syn' :: syns) (a :: args) rest.

(** An argument for the repeated parameter. *)
Inductive repeated_fits (rp : repeated_syntax) : argspan -> Prop :=
| Rep_none sep pos : rp_allow_missing rp = true -> separated (rp_sep rp) true sep ->
    repeated_fits rp (None, sep, pos)
| Rep_any e t sep pos : rp_type rp = RepAny -> T e t -> separated (rp_sep rp) true sep ->
    repeated_fits rp (Some e, sep, pos)
| Rep_value e t sep pos : rp_type rp = RepTyped t -> converts_to t e -> separated (rp_sep rp) true sep ->
    repeated_fits rp (Some e, sep, pos)
| Rep_reference v p sep pos : rp_type rp = RepRef -> refers false v -> separated (rp_sep rp) true sep ->
    repeated_fits rp (Some (ESymbol v p), sep, pos).

(** The arguments match the declaration. *)
Inductive fits (syn : callable_syntax) (args : list argspan) : Prop :=
| Fits_exactly : sy_repeated syn = None -> all_fixed false (sy_singular syn) args [] -> fits syn args
| Fits_repeated rp rest : sy_repeated syn = Some rp ->
    all_fixed (match rest with [] => negb (rp_require_one rp) | _ => false end) (sy_singular syn) args rest ->
    Forall (repeated_fits rp) rest -> fits syn args.

(** A subscript of an array. *)
Inductive subscript : argspan -> Prop :=
| Subscript e sep pos : converts_to TInteger e -> subscript (Some e, sep, pos).
End Fits.

Inductive typed : expr -> etype -> Prop :=
| Y_boolean b p : typed (EBoolean b p) TBoolean
| Y_double d p : typed (EDouble d p) TDouble
| Y_integer z p : typed (EInteger z p) TInteger
| Y_text s p : typed (EText s p) TText
| Y_variable v p r t : get_local_or_global ls v = Ok (r, PScalar t) -> typed (ESymbol v p) t
| Y_function v p w s md t : get_local_or_global ls v = Err (SeUndefined w s) ->
    get_callable (ls_global ls) (symkey (vr_name v)) = Some md -> md_return md = Some t ->
    annotated v t -> is_argless md = true -> typed (ESymbol v p) t
| Y_binary o l r p tl tr t : typed l tl -> typed r tr -> op2_type o tl tr t -> typed (EBinary o l r p) t
| Y_unary o e p te t : typed e te -> op1_type o te t -> typed (EUnary o e p) t
| Y_call v p args md t syn : get_callable (ls_global ls) (symkey (vr_name v)) = Some md ->
    md_return md = Some t -> annotated v t -> is_argless md = false -> chosen md (length args) syn ->
    fits typed syn args -> typed (ECall v p args) t
| Y_element v p args r t : get_callable (ls_global ls) (symkey (vr_name v)) = None ->
    get_local_or_global ls v = Ok (r, PArray t (length args)) -> args <> [] ->
    Forall (subscript typed) args -> typed (ECall v p args) t.
End Typing.

(** Out of registers, constants or built-in functions. *)
Definition out_of_resources (e : cerror) : Prop :=
  match e with CeOutOfConstants _ | CeOutOfRegisters _ _ | CeOutOfUpcalls _ => True | _ => False end.

(** * Commands *)

(** The symbols of [l] are those of these definitions. *)
Definition knows (locals globals : list (ustr * proto)) (l : lsyms) : Prop :=
  exists l0, defined locals globals l0 /\ ls_locals l = ls_locals l0 /\
    gs_vars (ls_global l) = gs_vars (ls_global l0).

(** The arguments through which a command may define variables: those of the reference parameters
    that are declared so, and those of repeated references. *)
Fixpoint fixed_outputs (syns : list singular_syntax) (args : list argspan) : list argspan :=
  match syns, args with
  | RequiredRef _ _ true _ :: syns', a :: args' => a :: fixed_outputs syns' args'
  | _ :: syns', _ :: args' => fixed_outputs syns' args'
  | _, _ => []
  end.
Definition outputs (syn : callable_syntax) (args : list argspan) : list argspan :=
  fixed_outputs (sy_singular syn) args ++
  match sy_repeated syn with
  | Some rp => match rp_type rp with RepRef => skipn (length (sy_singular syn)) args | _ => [] end
  | None => []
  end.

(** A new name becomes a variable of the annotated type, or else an integer; a name that means
    something already is left alone. *)
Definition annotated_or_integer (v : varref) : etype :=
  match vr_type v with Some t => t | None => TInteger end.
Definition means_something (g : gsyms) (locals globals : list (ustr * proto)) (name : ustr) : bool :=
  match find_def locals name, find_def globals name, get_callable g (symkey name) with
  | None, None, None => false
  | _, _, _ => true
  end.
Fixpoint introduce (g : gsyms) (globals locals : list (ustr * proto)) (outs : list argspan)
  : list (ustr * proto) :=
  match outs with
  | [] => locals
  | (Some (ESymbol v _), _, _) :: outs' =>
      introduce g globals
        (if means_something g locals globals (vr_name v) then locals
         else locals ++ [(vr_name v, PScalar (annotated_or_integer v))]) outs'
  | _ :: outs' => introduce g globals locals outs'
  end.
