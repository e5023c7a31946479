(** [DATA], [READ] and [RESTORE] in programs: C72. *)
From Coq Require Import String.
From Verif Require Import Base Bytecode_Model Mem_Model Num_Model Vm_Model Vm_Spec Ids_Model Ast_Model Syms_Model
  Codegen_Model Exprs_Model Top_Model Incr_Spec Args_Spec Eval_Spec Eval_Props Call_Spec Host_Model Host_Case
  Exec_Spec Program_Proofs User_Spec User_Proofs Exec_Props User_Props Host_Props Cmds_Model Cmds_Spec
  Cmds_Host Cmds_Props Data_Model Data_Spec Input_Model Input_Props Read_Model Read_Spec Read_Order Read_Proofs.
Local Open Scope string_scope.
Local Open Scope list_scope.
Local Open Scope nat_scope.

(** What [READ] finds is what the [DATA] of the program say, in the order in which they are written,
    wherever in the program they are. *)
Theorem C72_data_order : forall upcalls defs src img, compile_new upcalls defs src = (Compiled, img) ->
  Forall2 item_is (all_items (fst src)) (ci_data img).
Proof.
  intros * H. unfold compile_new in H. destruct (compiler_new upcalls defs) as [k| |] eqn:E; try discriminate H.
  destruct (compile_more k cimage_default src) as [[o k'] i] eqn:C. injection H as -> ->.
  destruct (more_data k cimage_default _ _ _ _ (start_data _ _ _ E) C) as (_ & new & EN & D). cbn in EN. rewrite EN. exact D.
Qed.
Print Assumptions C72_data_order.

(** In a session, each input adds its own after those of the earlier ones, or nothing if it does
    not compile. *)
Theorem C72_session_data : forall upcalls defs srcs k img src o k' img', session upcalls defs srcs k img ->
  compile_more k img src = (o, k', img') ->
  exists new, ci_data img' = ci_data img ++ new /\
    match o with Compiled => Forall2 item_is (all_items (fst src)) new | _ => new = [] end.
Proof. intros * S0 C. apply (more_data _ _ _ _ _ _ (session_data _ _ _ _ _ S0) C). Qed.
Print Assumptions C72_session_data.

(** The commands may be added to any host that does what it should. *)
Theorem C72_data_obeys : forall show (W : Type) (index_of : W -> nat) at_index ups img shared other others mds,
  host_obeys other img ups others mds shared -> (forall z, In (Some (CInt z)) (i_data img) -> in_i32 z) ->
  host_obeys (data_host show index_of at_index other ups) img ups
    (data_calls show index_of at_index (i_data img) others) ((u "READ", read_md) :: (u "RESTORE", restore_md) :: mds) shared.
Proof. intros. apply data_obeys; assumption. Qed.
Print Assumptions C72_data_obeys.

Definition named (ls : lsyms) (v : varref) (x : ustr * etype) : Prop :=
  fst x = ascii_upper (vr_name v) /\ declared ls (fst x) = Some (snd x).
Lemma read_chosen powf (W : Type) callable variable (calls : ustr -> list given -> env W -> res vm_error (option cdatum) -> env W -> Prop)
    ls s args vs vars : read_args args vs -> Forall2 (named ls) vs vars ->
  exists syn gs, chosen read_md (length args) syn /\
    delivers powf callable variable calls true s (wants syn args) (Ok gs) s /\ map (told (declared ls)) gs = references vars /\ vars <> [].
Proof.
  intros AR NM.
  assert (D : exists gs, delivers powf callable variable calls true s (flat_map (repeated_want read_repeated) args) (Ok gs) s /\
                map (told (declared ls)) gs = references vars /\ vars <> []).
  { revert vars NM. induction AR as [v p pos|v p pos args vs AR IH]; intros vars NM; inversion NM as [|? [k t] ? vars' [NK ND] NM']; subst; cbn [fst snd] in *; subst k.
    - inversion NM'; subst. exists [GTag (VPointer SepEnd); GRef (ascii_upper (vr_name v)) None]. split; [|split; [|discriminate]].
      + cbn [flat_map repeated_want app]. eapply (D_more _ _ _ _ _ _ _ _ [_; _]); [|apply D_none]. apply G_tagged_variable; auto.
      + cbn [map told references]. rewrite ND. reflexivity.
    - destruct (IH _ NM') as (gs & DE & MP & NV). exists ([GTag (VPointer SepLong); GRef (ascii_upper (vr_name v)) None] ++ gs).
      split; [|split; [|discriminate]].
      + cbn [flat_map repeated_want app]. eapply (D_more _ _ _ _ _ _ _ _ [_; _]); [|exact DE]. apply G_tagged_variable; auto.
      + rewrite map_app, MP. rewrite references_cons. cbn [map told app]. rewrite ND. destruct vars'; [contradiction|reflexivity]. }
  destruct D as (gs & DE & MP & NV). exists (mkSyntax [] (Some read_repeated)), gs. split; [|split; [|split; assumption]].
  - exists [], []. split; [reflexivity|]. split; [|intros y []]. cbn. inversion AR; cbn; lia.
  - unfold wants. cbn [sy_singular sy_repeated fixed_wants app length skipn]. unfold repeated_wants. inversion AR; subst; exact DE.
Qed.

(** The variables of a [READ] get the values that come next, one each; the program goes on after
    that, with all the other variables as they were. *)
Theorem C72_read : forall show powf (W : Type) (index_of : W -> nat) at_index other others upcall
    defined hidden up defs k img x x' v p args vs vars left' s1 c m (s : env W),
  upcall = data_host show index_of at_index other (ci_upcalls img) ->
  linked up defs upcall k img defined (data_calls show index_of at_index (ci_data img) others) ->
  compiled_in up defs k img x [StCall v p args] x' -> stmt_fine (k_syms k) (StCall v p args) ->
  ready (runnable img) (k_syms k) hidden x c m s ->
  ascii_upper (vr_name v) = u "READ" -> get_callable (ls_global (k_syms k)) (u "READ") = Some read_md ->
  read_args args vs -> Forall2 (named (k_syms k)) vs vars ->
  read_into show (skipn (index_of (world s)) (ci_data img)) vars s None left' s1 ->
  outcome_of powf upcall (runnable img) (k_syms k) hidden x' c m
    (mkEnv (vals s1) (at_index (index_of (world s) + (length (skipn (index_of (world s)) (ci_data img)) - length left')) (world s))) SigNormal.
Proof.
  intros * -> LN CI FI R NV GC AR NM RI.
  destruct (read_chosen powf W (get_callable (ls_global (k_syms k))) (is_variable (k_syms k))
    (linked_calls powf k defined (data_calls show index_of at_index (ci_data img) others) 1) (k_syms k) s _ _ _ AR NM) as (syn & gs & CH & DE & MP & NE).
  eapply C63_command with (n := 0); try eassumption; [rewrite NV; exact GC|]. rewrite NV, MP. apply Calls_read.
  exists vars, None, left', s1. split; [exact NE|]. split; [reflexivity|]. split; [exact RI|]. split; reflexivity.
Qed.
Print Assumptions C72_read.

(** If there are too few values, or one does not fit, it fails; values that were taken, and the one
    that does not fit, are read. *)
Theorem C72_failing_read : forall show powf (W : Type) (index_of : W -> nat) at_index other others upcall
    defined hidden up defs k img x x' v p args vs vars left' s1 msg c m (s : env W),
  upcall = data_host show index_of at_index other (ci_upcalls img) ->
  linked up defs upcall k img defined (data_calls show index_of at_index (ci_data img) others) ->
  compiled_in up defs k img x [StCall v p args] x' -> stmt_fine (k_syms k) (StCall v p args) ->
  ready (runnable img) (k_syms k) hidden x c m s ->
  ascii_upper (vr_name v) = u "READ" -> get_callable (ls_global (k_syms k)) (u "READ") = Some read_md ->
  read_args args vs -> Forall2 (named (k_syms k)) vs vars ->
  read_into show (skipn (index_of (world s)) (ci_data img)) vars s (Some msg) left' s1 ->
  exists c' m', runs powf upcall (runnable img) c m c' m' /\
    (gives_up powf upcall (runnable img) c' m' \/ fails powf upcall (runnable img) c' m' (XUpcall msg)
      (at_index (index_of (world s) + (length (skipn (index_of (world s)) (ci_data img)) - length left')) (world s))).
Proof.
  intros * -> LN CI FI R NV GC AR NM RI.
  destruct (read_chosen powf W (get_callable (ls_global (k_syms k))) (is_variable (k_syms k))
    (linked_calls powf k defined (data_calls show index_of at_index (ci_data img) others) 1) (k_syms k) s _ _ _ AR NM) as (syn & gs & CH & DE & MP & NE).
  match goal with |- context [fails _ _ _ _ _ _ ?w] => change w with (world (mkEnv (vals s) w)) end.
  eapply C63_failing_command with (n := 0) (s1 := s); try eassumption; [rewrite NV; exact GC|]. rewrite NV, MP. apply Calls_read.
  exists vars, (Some msg), left', s1. split; [exact NE|]. split; [reflexivity|]. split; [exact RI|]. split; reflexivity.
Qed.
Print Assumptions C72_failing_read.

(** After [RESTORE], no value has been read. *)
Theorem C72_restore : forall show powf (W : Type) (index_of : W -> nat) at_index other others upcall
    defined hidden up defs k img x x' v p c m (s : env W),
  upcall = data_host show index_of at_index other (ci_upcalls img) ->
  linked up defs upcall k img defined (data_calls show index_of at_index (ci_data img) others) ->
  compiled_in up defs k img x [StCall v p []] x' -> stmt_fine (k_syms k) (StCall v p []) ->
  ready (runnable img) (k_syms k) hidden x c m s ->
  ascii_upper (vr_name v) = u "RESTORE" -> get_callable (ls_global (k_syms k)) (u "RESTORE") = Some restore_md ->
  outcome_of powf upcall (runnable img) (k_syms k) hidden x' c m (mkEnv (vals s) (at_index 0 (world s))) SigNormal.
Proof.
  intros * -> LN CI FI R NV GC.
  eapply C63_command with (n := 0) (gs := []) (syn := mkSyntax [] None) (s1 := s); try eassumption; [rewrite NV; exact GC| | |].
  - exists [], []. split; [reflexivity|]. split; [reflexivity|intros y []].
  - apply D_none.
  - rewrite NV. apply Calls_restore.
Qed.
Print Assumptions C72_restore.

(** A case: [READ a, b$: PRINT a: RESTORE: READ c: PRINT c] with the data in a function and in a
    branch that is not taken. *)
Definition reader : Type := nat * list con_op.
Definition put_down (op : con_op) (w : reader) : reader * option ustr := ((fst w, snd w ++ [op]), None).
Definition turn_to (n : nat) (w : reader) : reader := (n, snd w).
Definition reading (ups : list ustr) :=
  data_host (fun _ => u "1e300") fst turn_to (console_host (fun _ => u "1.5") put_down (fun _ => Ok (80, 24)%N) no_host ups) ups.
Definition upcalls72 := (u "READ", read_md) :: (u "RESTORE", restore_md) :: console_upcalls.
Definition b72 : varref := mkVarRef (u "b") (Some TText).
Definition args72 : list argspan := [(Some (var_ "a"), SepLong, at_); (Some (ESymbol b72 at_), SepEnd, at_)].
Definition read_ (args : list argspan) : stmt := StCall (v_ "read") at_ args.
Definition p72 : list stmt :=
  [ StCallable (mkVarRef (u "f") (Some TInteger)) at_ [] [StData [Some (EDouble 4612811918334230528 at_)]] at_;
    read_ args72; print_ [(Some (var_ "a"), SepEnd, at_)]; StCall (v_ "restore") at_ [];
    read_ [(Some (var_ "c"), SepEnd, at_)]; print_ [(Some (var_ "c"), SepEnd, at_)];
    StIf [(EBoolean false at_, [StData [None; Some (int_ 7)]])];
    read_ args72; read_ args72 ].
Lemma fails_by powf (W : Type) upcall img c (m : mem W) idx first pc c1 h1 r p msg e w : asks powf img c m idx first pc c1 h1 ->
  upcall idx first pc img c1 h1 (m_world m) = Some r -> u_failure W r = Some (p, msg) -> e = XUpcall msg -> w = u_world W r ->
  fails powf upcall img c m e w.
Proof. intros A B C -> ->. eapply F_host; eassumption. Qed.
Example C72_machine_case : exists img, compile_new upcalls72 [] (p72, None) = (Compiled, img) /\
  ci_data img = [Some (CDouble 4612811918334230528); None; Some (CInt 7)] /\
  forall powf, exists c m, runs powf (reading (ci_upcalls img)) (runnable img) (ctx_new 100) (mkMem (heap_new 10000) (0, [])) c m /\
    fails powf (reading (ci_upcalls img)) (runnable img) c m
      (XUpcall (u "Cannot assign value of type INTEGER to variable of type STRING")) (3, [OpPrint (u " 3"); OpPrint (u " 3")]) /\
    m_world m = (1, [OpPrint (u " 3"); OpPrint (u " 3")]).
Proof.
  eexists. split; [vm_compute; reflexivity|]. split; [reflexivity|]. intros powf. do 2 eexists. split; [talk_|].
  split; [eapply fails_by; [left; vm_compute; reflexivity|vm_compute; reflexivity|vm_compute; reflexivity|vm_compute; reflexivity|vm_compute; reflexivity]|vm_compute; reflexivity].
Qed.

(** The same through [C72_read], for the first line of [READ a, b$: DATA 2.5] and an item left out. *)
Definition q72 : list stmt := [read_ args72; StData [Some (EDouble 4612811918334230528 at_); None]].
Definition k72 : compiler := match compiler_new upcalls72 [] with COk k => k | _ => mkCompiler tctx_new (enter_scope (gs_new [])) end.
Definition x72 : sst := (set_gen (pop_eof (t_gen (k_ctx k72))) (k_ctx k72), k_syms k72).
Definition y72 : sst := match compile_stmts [read_ args72] x72 with COk x => x | _ => x72 end.
Definition k72' : compiler := snd (fst (compile_more k72 cimage_default (q72, None))).
Definition img72 : cimage := snd (compile_more k72 cimage_default (q72, None)).
Definition others72 := console_calls (fun _ => u "1.5") put_down (fun _ => Ok (80, 24)%N) no_calls.
Definition calls72 := data_calls (fun _ => u "1e300") fst turn_to (ci_data img72) others72.
Lemma hosted72 : hosted (reading (ci_upcalls img72)) k72' img72 calls72.
Proof.
  assert (GU : gs_user (ls_global (k_syms k72')) = []) by (vm_compute; reflexivity).
  assert (GP : gs_upcalls (ls_global (k_syms k72')) = upcalls72) by (vm_compute; reflexivity).
  assert (GV : gs_vars (ls_global (k_syms k72')) = []) by (vm_compute; reflexivity).
  assert (GL : ls_locals (k_syms k72') = [(u "A", (PScalar TInteger, 0%N)); (u "B", (PScalar TText, 1%N))]) by (vm_compute; reflexivity).
  assert (NM : forall k md, assoc upcalls72 k = Some md -> md_user md = false).
  { intros k md. unfold upcalls72. cbn [assoc]. destruct (ustr_eqb (u "READ") k); [intros E; injection E as <-; reflexivity|].
    destruct (ustr_eqb (u "RESTORE") k); [intros E; injection E as <-; reflexivity|]. intros E. apply console_names in E. apply E. }
  split.
  - intros k. right. rewrite GV. reflexivity.
  - split.
    + intros k md. rewrite GU. discriminate.
    + intros k md. rewrite GP. apply NM.
    + intros k md _. rewrite GV. reflexivity.
    + intros k md t n i _. rewrite GL. unfold id_get. cbn [find fst snd]. destruct (ustr_eqb (u "A") k); [discriminate|]. destruct (ustr_eqb (u "B") k); discriminate.
  - rewrite GP. unfold upcalls72. apply C72_data_obeys.
    + rewrite <- (app_nil_r console_upcalls). apply C67_console_obeys. split; try (intros; contradiction). reflexivity.
    + intros z I. vm_compute in I. destruct I as [I|[I|[]]]; discriminate I.
  - intros k gs s r s'. rewrite GP. intros [? ? ? ? _|?|? ? ? ? ? _ _ [| | | | | | | |? ? ? ? ? _ []]]; vm_compute; discriminate.
Qed.
Lemma compiled72 : compiled_in upcalls72 [] k72' img72 x72 [read_ args72] y72.
Proof.
  eapply (compiled_now upcalls72 [] [] k72 cimage_default [] [read_ args72] [StData [Some (EDouble 4612811918334230528 at_); None]]);
    [apply session_start; reflexivity| |reflexivity|]; vm_compute; reflexivity.
Qed.
Lemma fine72 : stmt_fine (k_syms k72') (read_ args72).
Proof.
  intros e o O. inversion O; subst. split; [|discriminate]. match goal with H : In _ args72 |- _ => rename H into I end. cbn [args72 In] in I.
  repeat (destruct I as [I|I]; [try discriminate I; injection I as <- _ _; vm_compute; repeat split; try exact Logic.I; discriminate|]). destruct I.
Qed.
Example C72_case : forall powf, exists s', vals s' (u "A") = Some (Scalar (CInt 3)) /\ vals s' (u "B") = Some (Scalar (CText [])) /\
  world s' = (2, []) /\
  outcome_of powf (reading (ci_upcalls img72)) (runnable img72) (k_syms k72') (fun _ => None) y72 (ctx_new 100)
    (mkMem (heap_new 10000) (0, [])) s' SigNormal.
Proof.
  intros powf. set (s := mkEnv (fun _ => None) (0, []) : env reader).
  exists (mkEnv (vals (store (store s (u "A") (Scalar (CInt 3))) (u "B") (Scalar (CText [])))) (2, [])).
  split; [reflexivity|]. split; [reflexivity|]. split; [reflexivity|].
  refine (C72_read (fun _ => u "1e300") powf _ fst turn_to _ others72 _ (fun _ _ => False) _ upcalls72 [] k72' img72 x72 y72
    (v_ "read") at_ args72 [v_ "a"; b72] [(u "A", TInteger); (u "B", TText)] [] _ _ _ s eq_refl
    (linked_nothing _ _ _ _ _ _ hosted72) compiled72 fine72 _ eq_refl _ _ _ _).
  - split; [reflexivity|]. apply new_holds. reflexivity.
  - vm_compute. reflexivity.
  - apply Args_comma, Args_last.
  - repeat constructor; vm_compute; reflexivity.
  - change (skipn (fst (world s)) (ci_data img72)) with (ci_data img72).
    assert (D : ci_data img72 = [Some (CDouble 4612811918334230528); None]) by (vm_compute; reflexivity). rewrite D.
    apply Into_value with (v := CInt 3); [exists 3%Z; split; [vm_compute; reflexivity|reflexivity]|].
    apply Into_default with (v := CText []); [reflexivity|]. apply Into_done.
Qed.
