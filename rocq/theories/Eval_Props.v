(** Expressions: C18 and C19. *)
From Coq Require Import String.
From Verif Require Import Base Bytecode_Model Bytecode_Spec Bytecode_Proofs Mem_Model Mem_Spec Mem_Proofs Num_Model
  Vm_Model Vm_Spec Ids_Model Ids_Spec Ids_Proofs Ast_Model Syms_Model Codegen_Model Codegen_Proofs Exprs_Model
  Top_Model Eval_Spec Eval_Proofs.
Local Open Scope string_scope.
Local Open Scope list_scope.
Local Open Scope nat_scope.

(** * C18 *)

(** The full statement is about every well-typed expression; calls and array elements are
    missing here, and see [C18_changes_no_variable_refuted] for calls.  [reg] may be any
    register below the temporaries of the expression that holds none of its variables. *)
Theorem C18_expression_value_partial : forall powf img ls s e reg st st' t c h,
  ls_wf ls -> gwf (fst st) -> compile_expr ls e reg st = COk (st', t) -> call_free e -> literals_ok e ->
  code_in img (fst st') (next_pc (fst st)) (next_pc (fst st')) -> consts_in img (fst st') ->
  c_pc c = next_pc (fst st) -> c_yield c = false -> 64 <= c_fp c -> heap_ok h ->
  holds ls (i_constants img) c h s e ->
  (forall v r p, In v (vars e) -> get_local_or_global ls v = Ok (r, p) -> r <> reg) ->
  reg_index c reg < c_fp c + N.to_nat (N.of_nat (id_len (ls_locals ls)) + ts_next (snd st)) ->
  exists r, eval powf s e = Some r /\
    computed powf img c h (next_pc (fst st')) reg t (variables_kept ls reg c) r.
Proof.
  intros * LW W H CF LO CI K PC Y FP O HO UN RL.
  destruct (typed_eval powf ls (i_constants img) c h s e t (expr_type _ _ _ _ _ _ H) CF HO) as (r & E & _).
  exists r. split; [exact E|]. eapply settles_computed; [|exact LW|exact FP|exists (snd st); reflexivity].
  eapply expr_runs; eauto.
  - intros v d Iv Ev. destruct (HO v Iv) as (d' & r' & t' & Ev' & G & T). rewrite G.
    rewrite Ev in Ev'. injection Ev' as <-. exact T.
  - intros v d r' p Iv _ G. eapply UN; eassumption.
Qed.
Print Assumptions C18_expression_value_partial.

(** Conversion to the type of the destination. *)
Theorem C18_converted_value_partial : forall powf img ls s e reg target st st' c h,
  ls_wf ls -> gwf (fst st) -> compile_expr_as_type ls e reg target st = COk st' -> call_free e -> literals_ok e ->
  code_in img (fst st') (next_pc (fst st)) (next_pc (fst st')) -> consts_in img (fst st') ->
  c_pc c = next_pc (fst st) -> c_yield c = false -> 64 <= c_fp c -> heap_ok h ->
  holds ls (i_constants img) c h s e ->
  (forall v r p, In v (vars e) -> get_local_or_global ls v = Ok (r, p) -> r <> reg) ->
  reg_index c reg < c_fp c + N.to_nat (N.of_nat (id_len (ls_locals ls)) + ts_next (snd st)) ->
  exists r, eval_as powf s target e = Some r /\
    computed powf img c h (next_pc (fst st')) reg target (variables_kept ls reg c) r.
Proof.
  intros * LW W H CF LO CI K PC Y FP O HO UN RL.
  destruct (as_type_value powf ls (i_constants img) c h s e reg target st st' H CF HO) as (r & E).
  exists r. split; [exact E|]. eapply settles_computed; [|exact LW|exact FP|exists (snd st); reflexivity].
  eapply as_runs; eauto.
  - intros v d Iv Ev. destruct (HO v Iv) as (d' & r' & t' & Ev' & G & T). rewrite G.
    rewrite Ev in Ev'. injection Ev' as <-. exact T.
  - intros v d r' p Iv _ G. eapply UN; eassumption.
Qed.
Print Assumptions C18_converted_value_partial.

(** [a + 3 * 1.5 > 7] with [a] an integer, compiled into the first temporary. *)
Definition v_ (s : string) := mkVarRef (u s) None.
Definition ls18 : lsyms := mkLsyms (gs_new []) [(u "A", (PScalar TInteger, 0%N))] 0 0.
Definition e18 : expr :=
  EBinary BGreater
    (EBinary BAdd (ESymbol (v_ "a") (1, 1)%N)
       (EBinary BMultiply (EInteger 3 (1, 5)%N) (EDouble 4609434218613702656 (1, 9)%N) (1, 7)%N) (1, 3)%N)
    (EInteger 7 (1, 15)%N) (1, 13)%N.
Definition st18 : est := (codegen_new, mkTstate 1 1).
Definition done18 : est := match compile_expr ls18 e18 65 st18 with COk (s, _) => s | _ => st18 end.
Definition img18 : image := mkImage (map encode (g_code (fst done18))) [CDouble 4609434218613702656] [] [].
Definition c18 : ctx := set_reg (ctx_new 10) 64 4.
Definition s18 : env := fun n => if ustr_eqb n (u "A") then Some (CInt 4) else None.

Example C18_case :
  compile_expr ls18 e18 65 st18 = COk (done18, TBoolean) /\
  (exists r, eval (fun _ _ => 0%N) s18 e18 = Some r /\ r = Ok (CBool true) /\
     computed (fun _ _ => 0%N) img18 c18 (heap_new 1000) 10 65 TBoolean (variables_kept ls18 65 c18) r).
Proof.
  assert (H : compile_expr ls18 e18 65 st18 = COk (done18, TBoolean)) by (vm_compute; reflexivity).
  split; [exact H|].
  assert (C : g_code (fst done18) =
    [IMove 65 64; ILoadInteger 66 3; ILoadConstant 67 0; I1 IntegerToDouble 66; I3 MultiplyDouble 66 66 67;
     I1 IntegerToDouble 65; I3 AddDouble 65 65 66; ILoadInteger 66 7; I1 IntegerToDouble 66; I3 GreaterDouble 65 65 66])
    by (vm_compute; reflexivity).
  destruct (C18_expression_value_partial (fun _ _ => 0%N) img18 ls18 s18 e18 65 st18 done18 TBoolean c18 (heap_new 1000)) as (r & E & K).
  - exists [u "A"]. vm_compute. repeat split; constructor; [intros []|constructor].
  - vm_compute. repeat split; exists []; repeat split; constructor.
  - exact H.
  - cbn. auto.
  - cbn. split; [|unfold in_i32, i32_min, i32_max; lia]. split; [exact I|]. split; [unfold in_i32, i32_min, i32_max; lia|exact I].
  - intros p i _ N _. exists (encode i). cbn [img18 i_code]. split; [rewrite nth_error_map, N; reflexivity|].
    apply decode_encode. rewrite C in N. apply nth_error_In in N.
    repeat (destruct N as [<-|N]; [cbn; lia|]). destruct N.
  - intros ord Hw. exists []. rewrite app_nil_r. destruct Hw as (<- & _). vm_compute. reflexivity.
  - reflexivity.
  - reflexivity.
  - vm_compute. lia.
  - apply heap_ok_new.
  - intros v Hv. cbn [vars e18 app] in Hv. destruct Hv as [<-|[]].
    exists (CInt 4), 64%N, TInteger. split; [reflexivity|]. split; [reflexivity|].
    cbn [stands_for]. split; [reflexivity|]. split; [unfold in_i32, i32_min, i32_max; lia|reflexivity].
  - intros v q p Hv G. destruct Hv as [<-|[]]. injection G as <- _. discriminate.
  - vm_compute. lia.
  - exists r. split; [exact E|]. split; [vm_compute in E; congruence|exact K].
Qed.

(** The value of an expression with a call may be right and the call still changes a variable
    that it does not mention: a call without arguments is made with the destination register as
    the frame of the callee, so that the variables of the callee overwrite those of the caller
    that come later.  Here [END b] must exit with 2:
<<
FUNCTION f
  x = 3
  f = x
END FUNCTION
a = 1
b = 2
a = f
END b
>> *)
Definition at_ : linecol := (1, 1)%N.
Definition set_ (x : string) (e : expr) : stmt := StAssignment (v_ x) at_ e.
Definition int_ (z : Z) : expr := EInteger z at_.
Definition var_ (x : string) : expr := ESymbol (v_ x) at_.
Definition bin_ (o : binop) (a b : expr) : expr := EBinary o a b at_.
Definition end_ (e : expr) : stmt := StEnd (Some e) at_.

Theorem C18_changes_no_variable_refuted : exists p,
  p = [ StCallable (mkVarRef (u "f") (Some TInteger)) at_ [] [set_ "x" (int_ 3); set_ "f" (var_ "x")] at_;
        set_ "a" (int_ 1); set_ "b" (int_ 2); set_ "a" (var_ "f"); end_ (var_ "b") ] /\
  program_exits p 3 /\ ~ program_exits p 2.
Proof.
  eexists. split; [reflexivity|].
  match goal with |- ?A /\ _ => assert (H : A) end.
  { eexists. split; [vm_compute; reflexivity|]. intros powf. exists 30. vm_compute. reflexivity. }
  split; [exact H|]. eapply exits_once; [exact H|discriminate].
Qed.
Print Assumptions C18_changes_no_variable_refuted.

(** The temporaries of an expression lie where variables that are first assigned further down
    will live, so that evaluating the expression again, in a loop, destroys them.  Here [END x]
    must exit with 7:
<<
k = 0
DO WHILE k < 2
  IF k = 0 THEN x = 7
  k = k + 1
LOOP
END x
>> *)
Theorem C18_loop_variables_refuted : exists p,
  p = [ set_ "k" (int_ 0);
        StDo (GPreWhile (bin_ BLess (var_ "k") (int_ 2)))
          [ StIf [(bin_ BEqual (var_ "k") (int_ 0), [set_ "x" (int_ 7)])];
            set_ "k" (bin_ BAdd (var_ "k") (int_ 1)) ];
        end_ (var_ "x") ] /\
  ~ program_exits p 7.
Proof.
  eexists. split; [reflexivity|].
  match goal with |- ~ program_exits ?p _ => assert (H : program_exits p 0) end.
  { eexists. split; [vm_compute; reflexivity|]. intros powf. exists 60. vm_compute. reflexivity. }
  eapply exits_once; [exact H|discriminate].
Qed.
Print Assumptions C18_loop_variables_refuted.

(** A function that returns a double without assigning it returns the index of the constant 0.0
    as the bits of the number instead of 0.0.  Here [END] must exit with 0:
<<
FUNCTION f#
END FUNCTION
s$ = "constant 0"
IF f# = 0.0 THEN END 0
END 1
>> *)
Theorem C18_double_function_default_refuted : exists p,
  p = [ StAssignment (mkVarRef (u "s") (Some TText)) at_ (EText (u "constant 0") at_);
        StCallable (mkVarRef (u "f") (Some TDouble)) at_ [] [] at_;
        StIf [(bin_ BEqual (ESymbol (mkVarRef (u "f") (Some TDouble)) at_) (EDouble 0 at_), [end_ (int_ 0)])];
        end_ (int_ 1) ] /\
  program_exits p 1 /\ ~ program_exits p 0.
Proof.
  eexists. split; [reflexivity|].
  match goal with |- ?A /\ _ => assert (H : A) end.
  { eexists. split; [vm_compute; reflexivity|]. intros powf. exists 60. vm_compute. reflexivity. }
  split; [exact H|]. eapply exits_once; [exact H|discriminate].
Qed.
Print Assumptions C18_double_function_default_refuted.

(** * C19 *)

(** What compiles is well-typed, in the type the compiler reports; there is at most one type. *)
Theorem C19_compiled_expressions_are_typed : forall ls e reg st st' t,
  compile_expr ls e reg st = COk (st', t) -> has_type ls e t.
Proof. intros *. apply expr_type. Qed.
Print Assumptions C19_compiled_expressions_are_typed.

Theorem C19_ill_typed_expressions_are_rejected : forall ls e reg st,
  (forall t, ~ has_type ls e t) -> forall st' t, compile_expr ls e reg st <> COk (st', t).
Proof. intros * N st' t H. eapply N, expr_type, H. Qed.
Print Assumptions C19_ill_typed_expressions_are_rejected.

Theorem C19_types_are_unique : forall ls e t t', has_type ls e t -> has_type ls e t' -> t = t'.
Proof. intros * H. apply type_unique, H. Qed.
Print Assumptions C19_types_are_unique.

(** What is well-typed and calls nothing compiles, unless registers or constants run out. *)
Theorem C19_call_free_expressions_compile : forall ls e t reg st,
  has_type ls e t -> call_free e -> names_defined ls e -> (N.of_nat (id_len (ls_locals ls)) < 256)%N ->
  match compile_expr ls e reg st with
  | COk (_, t') => t' = t
  | CErr er => resource_error er
  | CPanic => False
  end.
Proof. intros * H CF ND L. eapply well_typed_compiles; eassumption. Qed.
Print Assumptions C19_call_free_expressions_compile.

(** A well-typed expression has a value, of that type, or fails at run time: no other error. *)
Theorem C19_typed_expressions_have_values : forall powf ls cs c h s e t,
  has_type ls e t -> call_free e -> holds ls cs c h s e ->
  exists r, eval powf s e = Some r /\ forall d, r = Ok d -> cdatum_etype d = t.
Proof. intros *. apply typed_eval. Qed.
Print Assumptions C19_typed_expressions_have_values.

(** Text and numbers do not add up; the expression of [C18_case] has a type; a shift of a double
    has none. *)
Example C19_case :
  has_type ls18 e18 TBoolean /\
  (forall t, ~ has_type ls18 (bin_ BAdd (var_ "a") (EText (u "x") at_)) t) /\
  (forall t, ~ has_type ls18 (bin_ BShiftLeft (var_ "a") (EDouble 0 at_)) t) /\
  (exists e, compile_expr ls18 (bin_ BShiftLeft (var_ "a") (EDouble 0 at_)) 65 st18 = CErr e).
Proof.
  split; [apply (C19_compiled_expressions_are_typed ls18 e18 65 st18 done18); vm_compute; reflexivity|].
  split; [|split].
  - intros t H. inversion H; subst.
    match goal with A : has_type _ (EText _ _) _ |- _ => inversion A; subst end.
    match goal with A : has_type _ (var_ _) _ |- _ => inversion A; subst end.
    match goal with A : name_type _ _ _ |- _ => vm_compute in A; subst end.
    match goal with A : op2_type _ _ _ _ |- _ => inversion A; subst end; unfold arithmetic, comparison in *; intuition discriminate.
  - intros t H. inversion H; subst.
    match goal with A : has_type _ (EDouble _ _) _ |- _ => inversion A; subst end.
    match goal with A : op2_type _ _ _ _ |- _ => inversion A; subst end; unfold arithmetic, comparison in *; intuition discriminate.
  - eexists. vm_compute. reflexivity.
Qed.
