(** The [INPUT] command: C71. *)
From Coq Require Import String.
From Verif Require Import Base Bytecode_Model Mem_Model Num_Model Vm_Model Vm_Spec Ids_Model Ast_Model Syms_Model
  Codegen_Model Exprs_Model Top_Model Incr_Spec Args_Spec Eval_Spec Eval_Props Call_Spec Host_Model Host_Case
  Strings_Model Strings_Spec Exec_Spec Program_Proofs User_Spec User_Proofs Exec_Props User_Props Host_Props Cmds_Model Cmds_Spec
  Cmds_Host Cmds_Props Input_Model Input_Spec Input_Proofs.
Local Open Scope string_scope.
Local Open Scope list_scope.
Local Open Scope nat_scope.

(** What is read, and printed in between, is exactly what should be. *)
Theorem C71_loop : forall uc parse_f64 (W : Type) (read_line : ustr -> ustr -> W -> W * line_read) perform t prompt before w r w' attempts,
  input_loop uc parse_f64 read_line perform attempts t prompt before w = Some (w', r) <->
  exists n, n <= attempts /\ asks uc parse_f64 read_line perform t prompt n before w r w'.
Proof.
  intros. split; [apply loop_asks|]. intros (n & LE & A). eapply asks_loop; eassumption.
Qed.
Print Assumptions C71_loop.

(** The command may be added to any host that does what it should. *)
Theorem C71_input_obeys : forall uc parse_f64 (W : Type) (read_line : ustr -> ustr -> W -> W * line_read) perform attempts ups img shared
    other others mds,
  host_obeys other img ups others mds shared ->
  host_obeys (input_host uc parse_f64 read_line perform other attempts ups) img ups
    (input_calls uc parse_f64 read_line perform attempts others) ((u "INPUT", input_md) :: mds) shared.
Proof. intros. apply input_obeys; assumption. Qed.
Print Assumptions C71_input_obeys.

Lemma input_chosen powf (W : Type) callable variable (calls : ustr -> list given -> env W -> res vm_error (option cdatum) -> env W -> Prop)
    s args gs var s1 : input_args powf callable variable calls s args gs var s1 ->
  exists syn, chosen input_md (length args) syn /\
    delivers powf callable variable calls true s (wants syn args) (Ok (gs ++ [GRef (ascii_upper (vr_name var)) None])) s1.
Proof.
  assert (REF : forall s v p pos, delivers powf callable variable calls true s (fixed_wants [input_ref] [(Some (ESymbol v p), SepEnd, pos)])
    (Ok [GRef (ascii_upper (vr_name v)) None]) s).
  { intros s0 v p pos. cbn [fixed_wants fixed_want input_ref app]. change [GRef (ascii_upper (vr_name v)) None] with ([GRef (ascii_upper (vr_name v)) None] ++ []).
    eapply D_more; [|apply D_none]. apply G_variable; auto. }
  intros [v p pos|sep pos1 v p pos|e sep pos1 v p pos t s' E].
  - exists (mkSyntax [input_ref] None). split; [|cbn [app]; unfold wants; cbn [sy_singular sy_repeated]; rewrite app_nil_r; apply REF].
    eexists [], _. split; [reflexivity|]. split; [reflexivity|intros y []].
  - eexists. split; [eexists [_], []; split; [reflexivity|]; split; [reflexivity|]|].
    + intros y [<-|[]] F. discriminate F.
    + unfold wants. cbn [sy_singular sy_repeated]. rewrite app_nil_r. cbn [fixed_wants fixed_want app].
      eapply (D_more _ _ _ _ true s (WMissing sep) _ [GTag (VMissing sep)]); [apply G_missing|]. exact (REF s v p pos).
  - eexists. split; [eexists [_], []; split; [reflexivity|]; split; [reflexivity|]|].
    + intros y [<-|[]] F. discriminate F.
    + unfold wants. cbn [sy_singular sy_repeated]. rewrite app_nil_r. cbn [fixed_wants fixed_want app].
      eapply (D_more _ _ _ _ true s _ _ [GTag (VImmediate sep TText); GValue (CText t)]); [|exact (REF s' v p pos)].
      apply (G_tagged _ _ _ _ true s sep (Some TText) e (CText t)). eapply A_value; [exact E|reflexivity].
Qed.

(** The variable that [INPUT] names gets the value of the first line that has one, of its type; the
    program goes on with that, and without any other change to its variables. *)
Theorem C71_input : forall uc parse_f64 powf (W : Type) (read_line : ustr -> ustr -> W -> W * line_read) perform attempts other others upcall
    defined n hidden up defs k img x x' v p args gs var t prompt lines d w c m (s s1 : env W),
  upcall = input_host uc parse_f64 read_line perform other attempts (ci_upcalls img) ->
  linked up defs upcall k img defined (input_calls uc parse_f64 read_line perform attempts others) ->
  compiled_in up defs k img x [StCall v p args] x' -> stmt_fine (k_syms k) (StCall v p args) ->
  ready (runnable img) (k_syms k) hidden x c m s ->
  ascii_upper (vr_name v) = u "INPUT" -> get_callable (ls_global (k_syms k)) (u "INPUT") = Some input_md ->
  input_args powf (get_callable (ls_global (k_syms k))) (is_variable (k_syms k))
    (linked_calls powf k defined (input_calls uc parse_f64 read_line perform attempts others) (S n)) s args gs var s1 ->
  declared (k_syms k) (ascii_upper (vr_name var)) = Some t -> prompts gs prompt ->
  asks uc parse_f64 read_line perform t prompt lines [] (world s1) (Ok d) w -> lines <= attempts ->
  outcome_of powf upcall (runnable img) (k_syms k) hidden x' c m
    (store (mkEnv (vals s1) w) (ascii_upper (vr_name var)) (Scalar d)) SigNormal.
Proof.
  intros * -> LN CI FI R NV GC AR DC PR AK LE. destruct (input_chosen _ _ _ _ _ _ _ _ _ _ AR) as (syn & CH & DE).
  eapply C63_command with (n := n); try eassumption; [rewrite NV; exact GC|]. rewrite NV. apply Calls_input.
  exists gs, prompt, (ascii_upper (vr_name var)), t, lines, (Ok d), w. split; [|split; [exact PR|split; [exact AK|split; [exact LE|split; reflexivity]]]].
  rewrite map_app. cbn [map told]. rewrite DC. f_equal. destruct PR; reflexivity.
Qed.
Print Assumptions C71_input.

(** Errors of the console, other than that a line is not valid text, end it. *)
Theorem C71_failing_input : forall uc parse_f64 powf (W : Type) (read_line : ustr -> ustr -> W -> W * line_read) perform attempts other others upcall
    defined n hidden up defs k img x x' v p args gs var t prompt lines msg w c m (s s1 : env W),
  upcall = input_host uc parse_f64 read_line perform other attempts (ci_upcalls img) ->
  linked up defs upcall k img defined (input_calls uc parse_f64 read_line perform attempts others) ->
  compiled_in up defs k img x [StCall v p args] x' -> stmt_fine (k_syms k) (StCall v p args) ->
  ready (runnable img) (k_syms k) hidden x c m s ->
  ascii_upper (vr_name v) = u "INPUT" -> get_callable (ls_global (k_syms k)) (u "INPUT") = Some input_md ->
  input_args powf (get_callable (ls_global (k_syms k))) (is_variable (k_syms k))
    (linked_calls powf k defined (input_calls uc parse_f64 read_line perform attempts others) (S n)) s args gs var s1 ->
  declared (k_syms k) (ascii_upper (vr_name var)) = Some t -> prompts gs prompt ->
  asks uc parse_f64 read_line perform t prompt lines [] (world s1) (Err msg) w -> lines <= attempts ->
  exists c' m', runs powf upcall (runnable img) c m c' m' /\
    (gives_up powf upcall (runnable img) c' m' \/ fails powf upcall (runnable img) c' m' (XUpcall msg) w).
Proof.
  intros * -> LN CI FI R NV GC AR DC PR AK LE. destruct (input_chosen _ _ _ _ _ _ _ _ _ _ AR) as (syn & CH & DE).
  change w with (world (mkEnv (vals s1) w)).
  eapply C63_failing_command with (n := n) (s1 := s1); try eassumption; [rewrite NV; exact GC|]. rewrite NV. apply Calls_input.
  exists gs, prompt, (ascii_upper (vr_name var)), t, lines, (Err msg), w. split; [|split; [exact PR|split; [exact AK|split; [exact LE|split; reflexivity]]]].
  rewrite map_app. cbn [map told]. rewrite DC. f_equal. destruct PR; reflexivity.
Qed.
Print Assumptions C71_failing_input.

(** A case: [INPUT "How many"; n: PRINT n * 2], answered with [x] and then [21] and a space. *)
Definition talk : Type := list line_read * list (ustr * ustr + con_op).
Definition hear (prompt before : ustr) (w : talk) : talk * line_read :=
  match w with
  | (l :: ls, out) => ((ls, out ++ [inl (prompt, before)]), l)
  | ([], out) => (([], out), ReadFailed (u "EOF"))
  end.
Definition say (op : con_op) (w : talk) : talk * option ustr := ((fst w, snd w ++ [inr op]), None).
Definition nothing_parsed (s : ustr) : option N := None.
Definition itself (c : N) : list N := [c].
Definition talker (ups : list ustr) :=
  input_host itself nothing_parsed hear say (console_host (fun _ => u "1.5") say (fun _ => Ok (80, 24)%N) no_host ups) 5 ups.
Definition upcalls71 := (u "INPUT", input_md) :: console_upcalls.
Definition input_ (args : list argspan) : stmt := StCall (v_ "input") at_ args.
Definition args71 : list argspan := [(Some (txt_ "How many"), SepShort, at_); (Some (var_ "n"), SepEnd, at_)].
Definition lines71 : list line_read := [ReadLine (u "x"); ReadInvalid (u "Bad text"); ReadLine (u "21 ")].
Definition heard71 : list (ustr * ustr + con_op) :=
  [inl (u "How many? ", []); inr (OpPrint (u "Retry input: Invalid integer literal x"));
   inl (u "How many? ", u "x"); inr (OpPrint (u "Retry input: Bad text")); inl (u "How many? ", u "x")].
Ltac talk_ := repeat first [ eapply runs_step; [vm_compute; reflexivity|]
                           | eapply runs_host; [left; vm_compute; reflexivity|vm_compute; reflexivity|vm_compute; reflexivity|]
                           | eapply runs_host; [right; vm_compute; reflexivity|vm_compute; reflexivity|vm_compute; reflexivity|] ]; apply runs_refl.
Example C71_machine_case : exists img, compile_new upcalls71 []
    ([input_ args71; print_ [(Some (EBinary BMultiply (var_ "n") (int_ 2) at_), SepEnd, at_)]], None) = (Compiled, img) /\
  forall powf, exists c m, runs powf (talker (ci_upcalls img)) (runnable img) (ctx_new 100) (mkMem (heap_new 10000) (lines71, [])) c m /\
    (exists c1 h1, step powf (runnable img) c m = RStop SEof c1 h1) /\
    m_world m = ([], heard71 ++ [inr (OpPrint (u " 42"))]).
Proof.
  eexists. split; [vm_compute; reflexivity|]. intros powf. do 2 eexists. split; [talk_|].
  split; [do 2 eexists; vm_compute; reflexivity|vm_compute; reflexivity].
Qed.

(** The same through [C71_input], in a new machine. *)
Definition p71 : list stmt := [input_ args71].
Definition k71 : compiler := match compiler_new upcalls71 [] with COk k => k | _ => mkCompiler tctx_new (enter_scope (gs_new [])) end.
Definition x71 : sst := (set_gen (pop_eof (t_gen (k_ctx k71))) (k_ctx k71), k_syms k71).
Definition y71 : sst := match compile_stmts p71 x71 with COk x => x | _ => x71 end.
Definition k71' : compiler := snd (fst (compile_more k71 cimage_default (p71, None))).
Definition img71 : cimage := snd (compile_more k71 cimage_default (p71, None)).
Definition others71 := console_calls (fun _ => u "1.5") say (fun _ => Ok (80, 24)%N) no_calls.
Definition calls71 := input_calls itself nothing_parsed hear say 5 others71.
Lemma hosted71 : hosted (talker (ci_upcalls img71)) k71' img71 calls71.
Proof.
  assert (GU : gs_user (ls_global (k_syms k71')) = []) by (vm_compute; reflexivity).
  assert (GP : gs_upcalls (ls_global (k_syms k71')) = upcalls71) by (vm_compute; reflexivity).
  assert (GV : gs_vars (ls_global (k_syms k71')) = []) by (vm_compute; reflexivity).
  assert (GL : ls_locals (k_syms k71') = [(u "N", (PScalar TInteger, 0%N))]) by (vm_compute; reflexivity).
  assert (NM : forall k md, assoc upcalls71 k = Some md -> md_user md = false /\ k <> u "N").
  { intros k md. unfold upcalls71. cbn [assoc]. destruct (ustr_eqb (u "INPUT") k) eqn:Q.
    - apply ustr_eqb_eq in Q. subst k. intros E. injection E as <-. split; [reflexivity|discriminate].
    - intros E. apply console_names in E. split; [apply E|]. intros ->. destruct E as [_ E].
      repeat (destruct E as [E|E]; [discriminate E|]). destruct E. }
  split.
  - intros k. right. rewrite GV. reflexivity.
  - split.
    + intros k md. rewrite GU. discriminate.
    + intros k md. rewrite GP. intros E. apply (NM k md E).
    + intros k md _. rewrite GV. reflexivity.
    + intros k md t n i _. rewrite GL. unfold id_get. cbn [find fst snd]. destruct (ustr_eqb (u "N") k); discriminate.
  - rewrite GP. unfold upcalls71. apply C71_input_obeys. rewrite <- (app_nil_r console_upcalls). apply C67_console_obeys.
    split; try (intros; contradiction). reflexivity.
  - intros k gs s r s'. rewrite GP. intros [? ? ? ? _|? ? ? ? ? _ [| | | | | | | |? ? ? ? ? _ []]]; vm_compute; discriminate.
Qed.
Lemma compiled71 : compiled_in upcalls71 [] k71' img71 x71 p71 y71.
Proof.
  eapply (compiled_now upcalls71 [] [] k71 cimage_default [] p71 []); [apply session_start; reflexivity| |reflexivity|];
    vm_compute; reflexivity.
Qed.
Lemma fine71 : stmt_fine (k_syms k71') (input_ args71).
Proof.
  intros e o O. inversion O; subst. split; [|discriminate]. match goal with H : In _ args71 |- _ => rename H into I end. cbn [args71 In] in I.
  repeat (destruct I as [I|I]; [try discriminate I; injection I as <- _ _; vm_compute; repeat split; try exact Logic.I; discriminate|]). destruct I.
Qed.
Lemma asks71 : asks itself nothing_parsed hear say TInteger (u "How many? ") 3 [] (lines71, []) (Ok (CInt 21)) ([], heard71).
Proof.
  eapply Asks_again with (s := u "x"); [reflexivity| | |reflexivity|].
  - exists []. split; [reflexivity|]. split; [constructor|]. intros c [|c' [|]] E; try discriminate E. injection E as <-. reflexivity.
  - split; [|reflexivity]. intros d M. inversion M as [| | |? z (sg & dg & E & SG & D & NE & _) _|]; subst.
    destruct SG as [E1|[E1|E1]]; subst sg; try discriminate E. cbn [app] in E. subst dg. inversion D as [|? ? B _]; subst. vm_compute in B. destruct B as [_ B]. apply B. reflexivity.
  - eapply Asks_invalid; [reflexivity|reflexivity|]. eapply Asks_value with (s := u "21"); [reflexivity| |].
    + exists (u " "). split; [reflexivity|]. split; [repeat constructor|]. intros c [|c0 [|c1 [|]]] E; try discriminate E. injection E as _ <-. reflexivity.
    + apply Means_integer; [|split; discriminate]. exists [], (u "21"). split; [reflexivity|]. split; [left; reflexivity|].
      split; [repeat constructor; discriminate|]. split; [discriminate|reflexivity].
Qed.
Example C71_case : forall powf, exists s', vals s' (u "N") = Some (Scalar (CInt 21)) /\ world s' = ([], heard71) /\
  outcome_of powf (talker (ci_upcalls img71)) (runnable img71) (k_syms k71') (fun _ => None) y71 (ctx_new 100)
    (mkMem (heap_new 10000) (lines71, [])) s' SigNormal.
Proof.
  intros powf. exists (store (mkEnv (fun _ => None) ([], heard71)) (u "N") (Scalar (CInt 21))). split; [reflexivity|]. split; [reflexivity|].
  refine (C71_input itself nothing_parsed powf _ hear say 5 _ others71 _ (fun _ _ => False) 0 _ upcalls71 [] k71' img71 x71 y71
    (v_ "input") at_ args71 _ (v_ "n") TInteger (u "How many? ") 3 (CInt 21) _ _ _ (mkEnv (fun _ => None) (lines71, [])) (mkEnv (fun _ => None) (lines71, [])) eq_refl
    (linked_nothing _ _ _ _ _ _ hosted71) compiled71 fine71 _ eq_refl _ _ _ _ asks71 _).
  - split; [reflexivity|]. apply new_holds. reflexivity.
  - vm_compute. reflexivity.
  - apply Args_prompt. apply V_text.
  - vm_compute. reflexivity.
  - apply (Prompt_text_short (u "How many")).
  - repeat constructor.
Qed.
