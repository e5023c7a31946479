(** What the compiler accepts: expressions with calls and array elements (C19), and the arguments
    of commands (C62). *)
From Coq Require Import String.
From Verif Require Import Base Bytecode_Model Vm_Model Ids_Model Ast_Model Syms_Model Syms_Spec Codegen_Model
  Exprs_Model Top_Model Eval_Spec Eval_Proofs Args_Spec Args_Proofs.
Local Open Scope string_scope.
Local Open Scope list_scope.
Local Open Scope nat_scope.

(** * C19 *)

(** What compiles is well-typed, in the type the compiler reports, and all its calls match the
    declarations of the functions they call. *)
Theorem C19_compiled_expressions_fit : forall ls e reg st st' t,
  compile_expr ls e reg st = COk (st', t) -> typed ls e t.
Proof. intros *. apply expr_typed. Qed.
Print Assumptions C19_compiled_expressions_fit.

(** What is well-typed compiles, to that type, unless registers, constants or the numbers of
    built-in functions run out. *)
Theorem C19_well_typed_expressions_compile : forall ls e t reg st,
  typed ls e t -> (N.of_nat (id_len (ls_locals ls)) < 256)%N ->
  match compile_expr ls e reg st with
  | COk (_, t') => t' = t
  | CErr er => out_of_resources er
  | CPanic => False
  end.
Proof.
  intros * T F. pose proof (typed_sat ls e F t reg st T) as H. destruct (compile_expr ls e reg st) as [[? ?]| |]; exact H.
Qed.
Print Assumptions C19_well_typed_expressions_compile.

(** The full typing refines the one above, so that these types are unique, too. *)
Theorem C19_fitting_types_are_unique : forall ls e t t', typed ls e t -> typed ls e t' -> t = t'.
Proof. intros * H H'. eapply type_unique; apply typed_has_type; eassumption. Qed.
Print Assumptions C19_fitting_types_are_unique.

(** [LEFT$(s$, 1 + 1)], with the declaration of std/src/strings.rs, is a text; [LEFT$(s$)] and
    [LEFT$(1, s$)] do not compile. *)
Definition left19 : callable_md :=
  mkMd (u "LEFT") (Some TText) false
    [mkSyntax [RequiredValue (u "expr") TText (SepExactly SepLong); RequiredValue (u "n") TInteger SepEndOnly] None] false.
Definition ls19 : lsyms := mkLsyms (gs_new [(u "LEFT", left19)]) [(u "S", (PScalar TText, 0%N))] 0 0.
Definition s19 : expr := ESymbol (mkVarRef (u "s") (Some TText)) (1, 6)%N.
Definition one19 : expr := EInteger 1 (1, 9)%N.
Definition call19 (args : list argspan) : expr := ECall (mkVarRef (u "left") (Some TText)) (1, 1)%N args.
Definition st19 : est := (codegen_new, mkTstate 1 1).
Example C19_call_case :
  typed ls19 (call19 [(Some s19, SepLong, (1, 8)%N); (Some (EBinary BAdd one19 one19 (1, 10)%N), SepEnd, (1, 12)%N)]) TText /\
  (forall t, ~ typed ls19 (call19 [(Some s19, SepEnd, (1, 8)%N)]) t) /\
  (forall t, ~ typed ls19 (call19 [(Some one19, SepLong, (1, 8)%N); (Some s19, SepEnd, (1, 9)%N)]) t).
Proof.
  split; [|split].
  - match goal with |- typed _ ?e _ => destruct (compile_expr ls19 e 65 st19) as [[st' t]| |] eqn:E;
      [|vm_compute in E; discriminate E..] end.
    pose proof (C19_compiled_expressions_fit _ _ _ _ _ _ E) as H. vm_compute in E. injection E as _ <-. exact H.
  - intros t H. pose proof (C19_well_typed_expressions_compile _ _ _ 65%N st19 H eq_refl) as E. vm_compute in E. exact E.
  - intros t H. pose proof (C19_well_typed_expressions_compile _ _ _ 65%N st19 H eq_refl) as E. vm_compute in E. exact E.
Qed.

(** * C62 *)

(** A command that compiles is no function; its arguments match the first of its declared forms
    that takes so many; new names in output positions, and no others, became variables, of the
    annotated type or integers; and no symbol but these was added. *)
Theorem C62_compiled_commands_fit : forall v vpos args x x' md locals globals,
  knows locals globals (snd x) -> get_callable (ls_global (snd x)) (symkey (vr_name v)) = Some md ->
  compile_call_stmt v vpos args x = COk x' ->
  md_return md = None /\
  exists syn, chosen md (length args) syn /\
    knows (introduce (ls_global (snd x)) globals locals (outputs syn args)) globals (snd x') /\
    ls_global (snd x') = ls_global (snd x) /\ fits (snd x') (typed (snd x')) syn args.
Proof. intros *. apply call_stmt_sound. Qed.
Print Assumptions C62_compiled_commands_fit.

(** A command whose arguments match compiles, unless registers, constants or the numbers of
    commands run out. *)
Theorem C62_fitting_commands_compile : forall v vpos args x md locals globals syn l',
  knows locals globals (snd x) -> get_callable (ls_global (snd x)) (symkey (vr_name v)) = Some md ->
  md_return md = None -> chosen md (length args) syn ->
  knows (introduce (ls_global (snd x)) globals locals (outputs syn args)) globals l' ->
  ls_global l' = ls_global (snd x) -> fits l' (typed l') syn args ->
  match compile_call_stmt v vpos args x with
  | COk _ => True
  | CErr er => out_of_resources er
  | CPanic => False
  end.
Proof.
  intros * K G R C K' G' F. pose proof (call_stmt_sat v vpos args x md locals globals syn l' K G R C K' G' F) as H.
  destruct (compile_call_stmt v vpos args x); exact H.
Qed.
Print Assumptions C62_fitting_commands_compile.

(** A number of arguments that no form takes is reported where the command is, with the command's
    description; so are unknown commands and functions used as commands. *)
Theorem C62_wrong_number_of_arguments : forall v vpos args x md,
  get_callable (ls_global (snd x)) (symkey (vr_name v)) = Some md -> md_return md = None ->
  (forall syn, ~ chosen md (length args) syn) ->
  compile_call_stmt v vpos args x = CErr (CeCallableSyntax vpos md).
Proof.
  intros * G R N. unfold compile_call_stmt. rewrite G, R. unfold define_new_args.
  destruct (find_syntax md (length args)) as [syn|] eqn:E; [|reflexivity].
  apply find_chosen in E. contradiction (N _ E).
Qed.
Print Assumptions C62_wrong_number_of_arguments.
Theorem C62_not_a_command : forall v vpos args x,
  (get_callable (ls_global (snd x)) (symkey (vr_name v)) = None ->
     compile_call_stmt v vpos args x = CErr (CeUndefinedSymbol vpos v)) /\
  (forall md t, get_callable (ls_global (snd x)) (symkey (vr_name v)) = Some md -> md_return md = Some t ->
     compile_call_stmt v vpos args x = CErr (CeNotAFunction vpos v)).
Proof.
  intros *. split; [intros G|intros md t G R]; unfold compile_call_stmt; rewrite G; [|rewrite R]; reflexivity.
Qed.
Print Assumptions C62_not_a_command.

(** A parameter of any type that is declared as required accepts to be left out: arguments past the
    end of the list are the only ones that are checked against the declaration, and the form of the
    call was chosen so that there are none.  With the declaration of [OUT_SEP_END] in
    core/tests/testutils, [first <,|;> second], the command [OUT_SEP_END 3,] compiles. *)
Definition md62 : callable_md :=
  mkMd (u "OUT_SEP_END") None false
    [mkSyntax [AnyValue (u "first") true (SepOneOf [SepLong; SepShort]); AnyValue (u "second") false SepEndOnly] None]
    false.
Theorem C62_required_value_refuted : exists x x' args,
  get_callable (ls_global (snd x)) (u "OUT_SEP_END") = Some md62 /\
  args = [(Some (EInteger 3 (1, 13)%N), SepLong, (1, 14)%N); (None, SepEnd, (1, 15)%N)] /\
  compile_call_stmt (mkVarRef (u "OUT_SEP_END") None) (1, 1)%N args x = COk x'.
Proof.
  exists (tctx_new, mkLsyms (gs_new [(u "OUT_SEP_END", md62)]) [] 0 0).
  do 2 eexists. split; [reflexivity|]. split; [reflexivity|]. vm_compute. reflexivity.
Qed.
Print Assumptions C62_required_value_refuted.

(** [READ]'s declaration: one or more references, separated by commas.  With [a] an integer
    variable, [READ a, b$] compiles and defines [b] as a text; [READ a; b$] and [READ 1] do not
    match. *)
Definition read62 : callable_syntax := mkSyntax [] (Some (mkRepeated (u "vref") RepRef (SepExactly SepLong) true false)).
Definition mdread : callable_md := mkMd (u "READ") None false [read62] false.
Definition l62 : lsyms :=
  match put_local (enter_scope (gs_new [(u "READ", mdread)])) (symkey (u "a")) (PScalar TInteger) with
  | Some (l, _) => l
  | None => enter_scope (gs_new [])
  end.
Definition arg62 (e : expr) (sep : argsep) : argspan := (Some e, sep, (1, 9)%N).
Definition var62 (n : string) (t : option etype) : expr := ESymbol (mkVarRef (u n) t) (1, 6)%N.
Definition call62 (args : list argspan) : cres sst :=
  compile_call_stmt (mkVarRef (u "READ") None) (1, 1)%N args (tctx_new, l62).

Example C62_case :
  knows [(u "a", PScalar TInteger)] [] l62 /\ chosen mdread 2 read62 /\
  (exists x', call62 [arg62 (var62 "a" None) SepLong; arg62 (var62 "b" (Some TText)) SepEnd] = COk x' /\
     knows [(u "a", PScalar TInteger); (u "b", PScalar TText)] [] (snd x')) /\
  call62 [arg62 (var62 "a" None) SepShort; arg62 (var62 "b" (Some TText)) SepEnd]
    = CErr (CeCallableSyntax (1, 9)%N mdread) /\
  call62 [arg62 (EInteger 1 (1, 6)%N) SepEnd] = CErr (CeCallableSyntax (1, 6)%N mdread) /\
  call62 [] = CErr (CeCallableSyntax (1, 1)%N mdread).
Proof.
  assert (K : knows [(u "a", PScalar TInteger)] [] l62).
  { exists l62. split; [|split; reflexivity].
    change [(u "a", PScalar TInteger)] with ([] ++ [(u "a", PScalar TInteger)]). eapply defined_local with (r := 64%N).
    - apply (defined_none (gs_new [(u "READ", mdread)])). reflexivity.
    - reflexivity. }
  split; [exact K|]. split; [exists [], []; split; [reflexivity|]; split; [cbn; lia|intros ? []]|].
  split; [|split; [vm_compute; reflexivity|split; vm_compute; reflexivity]].
  unfold call62.
  match goal with |- exists x', ?c = COk x' /\ _ => destruct c as [x'| |] eqn:E; [|vm_compute in E; discriminate E..] end.
  exists x'. split; [reflexivity|].
  destruct (C62_compiled_commands_fit (mkVarRef (u "READ") None) _ _ (tctx_new, l62) _ mdread _ _ K eq_refl E) as (_ & syn & C & K' & _).
  destruct C as (b & a & Q & Tk & _). destruct b as [|s0 b]; [injection Q as <- _|injection Q as <- Q; destruct b; discriminate Q].
  exact K'.
Qed.
