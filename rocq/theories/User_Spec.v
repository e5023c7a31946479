(** What calls of the functions and subroutines of a program mean. *)
From Verif Require Import Base Bytecode_Model Mem_Model Mem_Spec Num_Model Vm_Model Vm_Spec Ids_Model Ast_Model Syms_Model
  Codegen_Model Exprs_Model Top_Model Incr_Spec Args_Spec Eval_Spec Call_Spec Exec_Spec.

(** A function or subroutine of the program, with the tables at the end of its body. *)
Record definition := mkDef { df_name : varref; df_params : list varref; df_body : list stmt; df_syms : lsyms }.

Section Calls.
Variable powf : N -> N -> N.
Context {W : Type}.
(** Whether a variable is shared. *)
Variable shared : ustr -> bool.
(** The definitions, by name in upper case. *)
Variable defined : ustr -> definition -> Prop.

(** The result of a function that assigns none.  For DOUBLE that is not 0, see
    [C18_double_function_default_refuted]. *)
Definition default_result (t : etype) : option content :=
  match t with
  | TBoolean => Some (Scalar (CBool false))
  | TInteger => Some (Scalar (CInt 0))
  | TText => Some (Scalar (CText []))
  | TDouble => None
  end.

Definition param_type (p : varref) : etype := match vr_type p with Some t => t | None => TInteger end.
Fixpoint param_value (params : list varref) (ds : list cdatum) (k : ustr) : option cdatum :=
  match params, ds with
  | p :: params', d :: ds' => if ustr_eqb (ascii_upper (vr_name p)) k then Some d else param_value params' ds' k
  | _, _ => None
  end.

(** The body starts with the values of the parameters, the default of the result, and the shared
    variables. *)
Definition entered (d : definition) (ds : list cdatum) (s : env W) : env W :=
  mkEnv (fun k =>
    match param_value (df_params d) ds k with
    | Some v => Some (Scalar v)
    | None =>
        match vr_type (df_name d) with
        | Some t => if ustr_eqb (ascii_upper (vr_name (df_name d))) k then default_result t
                    else if shared k then vals s k else None
        | None => if shared k then vals s k else None
        end
    end) (world s).
(** Afterwards the caller has its own variables again, and the shared ones as they were left. *)
Definition returned (s s1 : env W) : env W :=
  mkEnv (fun k => if shared k then vals s1 k else vals s k) (world s1).

(** A RETURN that no GOSUB of the body awaits ends the call, as EXIT FUNCTION and EXIT SUB do. *)
Definition over (g : signal) : Prop := g = SigNormal \/ g = SigLeave \/ g = SigReturn.
(** The body of a definition, whose GOSUBs are one within another at most [depth] deep. *)
Definition body_runs (calls : ustr -> list given -> env W -> res vm_error (option cdatum) -> env W -> Prop) (depth : nat)
    (d : definition) (ds : list cdatum) (s s1 : env W) (g : signal) : Prop :=
  execs_in powf (df_syms d) calls (gosubs powf (df_syms d) calls depth (entered d ds s) (df_body d)) (entered d ds s) (df_body d) s1 g.

(** A call, where the calls in the body do what [calls] says. *)
Inductive user_call (calls : ustr -> list given -> env W -> res vm_error (option cdatum) -> env W -> Prop)
  : ustr -> list given -> env W -> res vm_error (option cdatum) -> env W -> Prop :=
| U_function depth k d ds s t s1 g v : defined k d -> Forall2 (fun p x => cdatum_etype x = param_type p) (df_params d) ds ->
    vr_type (df_name d) = Some t -> body_runs calls depth d ds s s1 g -> over g ->
    vals s1 k = Some (Scalar v) -> user_call calls k (map GValue ds) s (Ok (Some v)) (returned s s1)
| U_sub depth k d ds s s1 g : defined k d -> Forall2 (fun p x => cdatum_etype x = param_type p) (df_params d) ds ->
    vr_type (df_name d) = None -> body_runs calls depth d ds s s1 g -> over g ->
    user_call calls k (map GValue ds) s (Ok None) (returned s s1)
| U_fails depth k d ds s s1 e : defined k d -> Forall2 (fun p x => cdatum_etype x = param_type p) (df_params d) ds ->
    body_runs calls depth d ds s s1 (SigError e) ->
    user_call calls k (map GValue ds) s (Err e) (returned s s1).

(** Calls of the host, which do what [host] says, and of the program, one within another at most
    [n] deep. *)
Fixpoint program_calls (host : ustr -> list given -> env W -> res vm_error (option cdatum) -> env W -> Prop) (n : nat)
  : ustr -> list given -> env W -> res vm_error (option cdatum) -> env W -> Prop :=
  match n with
  | O => host
  | S n => fun k gs s r s' => host k gs s r s' \/ user_call (program_calls host n) k gs s r s'
  end.
End Calls.

(** * Programs *)

(** The compiler at the start of the body of a definition. *)
Definition body_start (name : varref) (pos : linecol) (params : list varref) (x : sst) : cres sst :=
  let* l := declare_callable name pos params (snd x) in
  let x := s_emit INop pos (fst x, l) in
  let kind := match vr_type name with Some _ => KFunction | None => KSub end in
  let* x := define_result name (symkey (vr_name name)) pos (set_current (Some kind) (fst x), enter_scope (ls_global l)) in
  let* l := define_params params pos (snd x) in
  COk (fst x, l).

(** The definitions among the statements of the inputs of a session, but not those within other
    statements. *)
Inductive defined_in (upcalls : list (ustr * callable_md)) (defs : list global_def) (k : compiler) (img : cimage)
  : ustr -> definition -> Prop :=
| defined_at x x' name pos params body epos x0 xe :
    compiled_in upcalls defs k img x [StCallable name pos params body epos] x' ->
    body_start name pos params x = COk x0 -> compile_stmts body x0 = COk xe ->
    defined_in upcalls defs k img (ascii_upper (vr_name name))
      (mkDef name params body (mkLsyms (ls_global (k_syms k)) (ls_locals (snd xe)) 0 0)).

(** A program with the definitions [defined], whose names do not hide each other, and with a host
    that does what [host] says. *)
Record linked {W} (upcalls : list (ustr * callable_md)) (defs : list global_def)
    (upcall : N -> N -> nat -> image -> ctx -> heap -> W -> option (upcall_result W)) (k : compiler) (img : cimage)
    (defined : ustr -> definition -> Prop)
    (host : ustr -> list given -> env W -> res vm_error (option cdatum) -> env W -> Prop) : Prop := mkLinked {
  ln_main : hosted upcall k img host;
  ln_compiled : forall key d, defined key d -> defined_in upcalls defs k img key d;
  ln_shadow : forall key d, defined key d -> no_shadowing (df_syms d);
  ln_apart : forall key d, defined key d -> names_apart (df_syms d);
  ln_fine : forall key d, defined key d -> Forall (stmt_fine (df_syms d)) (df_body d)
}.

(** What calls do in such a program, one within another at most [n] deep. *)
Definition linked_calls powf {W} (k : compiler) (defined : ustr -> definition -> Prop)
    (host : ustr -> list given -> env W -> res vm_error (option cdatum) -> env W -> Prop) (n : nat) :=
  program_calls powf (is_shared (k_syms k)) defined host n.

(** What its GOSUBs do in the block [l], which started with [s], one within another at most [d]
    deep. *)
Definition linked_subs powf {W} (k : compiler) (defined : ustr -> definition -> Prop)
    (host : ustr -> list given -> env W -> res vm_error (option cdatum) -> env W -> Prop) (n d : nat) (s : env W) (l : list stmt) :=
  gosubs powf (k_syms k) (linked_calls powf k defined host n) d s l.

(** The values of expressions, from left to right, each as one of a type. *)
Inductive values powf {W} (callable : ustr -> option callable_md) (variable : ustr -> bool)
    (calls : ustr -> list given -> env W -> res vm_error (option cdatum) -> env W -> Prop)
  : env W -> list etype -> list expr -> list cdatum -> env W -> Prop :=
| Values_none s : values powf callable variable calls s [] [] [] s
| Values_more s t ts e es v s1 vs s2 : evals_as powf callable variable calls s (Some t) e (Ok v) s1 ->
    values powf callable variable calls s1 ts es vs s2 ->
    values powf callable variable calls s (t :: ts) (e :: es) (v :: vs) s2.
