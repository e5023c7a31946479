(** The GPIO commands and functions in programs: C73. *)
From Coq Require Import String.
From Verif Require Import Base Bytecode_Model Mem_Model Num_Model Vm_Model Vm_Spec Ids_Model Ast_Model Syms_Model
  Codegen_Model Exprs_Model Top_Model Incr_Spec Args_Spec Eval_Spec Eval_Props Call_Spec Host_Model Host_Case
  Exec_Spec Program_Proofs User_Spec User_Proofs Exec_Props User_Props Host_Props Strings_Model Strings_Spec Cmds_Model Cmds_Spec Cmds_Props
  Input_Model Input_Props Read_Props Lib_Model Lib_Spec Lib_Proofs Lib_Run Gpio_Model Gpio_Spec Gpio_Proofs.
Local Open Scope string_scope.
Local Open Scope list_scope.
Local Open Scope nat_scope.

(** Functions and commands that are given values only and do what they should may be added to any
    host that does what it should. *)
Theorem C73_library_obeys : forall (W : Type) img (ps : list (provided W)) does ups shared other others mds,
  host_obeys other img ups others mds shared -> provides ps does ->
  host_obeys (lib_host ps other ups) img ups (value_calls does (map fst (lib_upcalls ps)) others) (lib_upcalls ps ++ mds) shared.
Proof. intros. apply lib_obeys; assumption. Qed.
Print Assumptions C73_library_obeys.

(** Those of GPIO are among them, with any chip. *)
Definition gpio_names : list ustr := [u "GPIO_CLEAR"; u "GPIO_READ"; u "GPIO_SETUP"; u "GPIO_WRITE"].
Theorem C73_gpio_obeys : forall (W : Type) (perform : pin_op -> W -> W * res ustr bool) img ups shared other others mds,
  host_obeys other img ups others mds shared ->
  host_obeys (lib_host (gpio_provided perform) other ups) img ups (value_calls (gpio_does perform) gpio_names others)
    (lib_upcalls (gpio_provided perform) ++ mds) shared.
Proof. intros * OB. apply (lib_obeys img (gpio_provided perform)); [exact OB|apply gpio_provides]. Qed.
Print Assumptions C73_gpio_obeys.

(** Whatever the values that they are given, each of them asks for something or tells what is
    wrong. *)
Theorem C73_every_call : forall z t b,
  (exists o, asks_chip (u "GPIO_SETUP") [GValue (CInt z); GValue (CText t)] o) /\
  (exists o, asks_chip (u "GPIO_CLEAR") [GValue (CInt z)] o) /\ (exists o, asks_chip (u "GPIO_READ") [GValue (CInt z)] o) /\
  (exists o, asks_chip (u "GPIO_WRITE") [GValue (CInt z); GValue (CBool b)] o).
Proof.
  intros z t b. destruct (pin_cases z) as [P|[msg P]].
  - split; [|split; [|split]]; try (eexists; constructor; exact P). destruct (pin_mode_parse t) as [m|e] eqn:Q.
    + eexists. apply Asks_setup; [exact P|apply mode_named, Q].
    + eexists. apply Asks_mode; [exact P|]. intros m N0. apply mode_ok in N0. congruence.
  - split; [|split; [|split]]; eexists; [apply Asks_setup_pin|apply Asks_clear_pin|apply Asks_read_pin|apply Asks_write_pin]; exact P.
Qed.
Print Assumptions C73_every_call.

(** A statement asks the chip for that, once, and the program goes on if the chip does it; otherwise
    it fails.  The chip is left alone if the pin or the mode are wrong. *)
Theorem C73_statement : forall powf (W : Type) (perform : pin_op -> W -> W * res ustr bool) upcall others defined n hidden up defs k img x x' v p args md syn gs o c m
    (s s1 : env W),
  linked up defs upcall k img defined (value_calls (gpio_does perform) gpio_names others) ->
  compiled_in up defs k img x [StCall v p args] x' -> stmt_fine (k_syms k) (StCall v p args) ->
  ready (runnable img) (k_syms k) hidden x c m s ->
  get_callable (ls_global (k_syms k)) (ascii_upper (vr_name v)) = Some md -> chosen md (length args) syn ->
  delivers powf (get_callable (ls_global (k_syms k))) (is_variable (k_syms k))
    (linked_calls powf k defined (value_calls (gpio_does perform) gpio_names others) (S n)) true s (wants syn args) (Ok gs) s1 ->
  asks_chip (ascii_upper (vr_name v)) gs o -> ascii_upper (vr_name v) <> u "GPIO_READ" ->
  match o with
  | Ok op => forall w a, perform op (world s1) = (w, a) ->
      match a with
      | Ok _ => outcome_of powf upcall (runnable img) (k_syms k) hidden x' c m (mkEnv (vals s1) w) SigNormal
      | Err msg => exists c' m', runs powf upcall (runnable img) c m c' m' /\
          (gives_up powf upcall (runnable img) c' m' \/ fails powf upcall (runnable img) c' m' (XUpcall msg) w)
      end
  | Err msg => exists c' m', runs powf upcall (runnable img) c m c' m' /\
      (gives_up powf upcall (runnable img) c' m' \/ fails powf upcall (runnable img) c' m' (XUpcall msg) (world s1))
  end.
Proof.
  intros * LN CI FI R GC CH DE AK NR. pose proof (asks_values _ _ _ AK) as OV.
  assert (NRD : forall op, o = Ok op -> ~ is_read op).
  { intros op -> [pin ->]. clear -AK NR. remember (Ok (ReadPin pin)) as o eqn:EO. revert NR. destruct AK; try discriminate EO. intros NR. apply NR. reflexivity. }
  destruct o as [op|msg].
  - intros w [b|msg] P.
    + apply (lib_statement powf _ _ _ _ _ _ _ _ _ LN n hidden x x' v p args md syn gs (Ok None) w c m s s1); try assumption.
      left. exists op, (Ok b). split; [exact AK|]. split; [exact P|]. apply Answered_done, NRD. reflexivity.
    + apply (lib_statement powf _ _ _ _ _ _ _ _ _ LN n hidden x x' v p args md syn gs (Err msg) w c m s s1); try assumption.
      left. exists op, (Err msg). split; [exact AK|]. split; [exact P|]. apply Answered_error.
  - apply (lib_statement powf _ _ _ _ _ _ _ _ _ LN n hidden x x' v p args md syn gs (Err msg) (world s1) c m s s1); try assumption.
    right. exists msg. auto.
Qed.
Print Assumptions C73_statement.

(** [x = GPIO_READ(pin)] leaves the level that the chip finds in the variable. *)
Theorem C73_read : forall powf (W : Type) (perform : pin_op -> W -> W * res ustr bool) upcall others defined n hidden up defs k img x x' a p v q args md syn z c m
    (s s1 : env W),
  linked up defs upcall k img defined (value_calls (gpio_does perform) gpio_names others) ->
  compiled_in up defs k img x [StAssignment a p (ECall v q args)] x' -> stmt_fine (k_syms k) (StAssignment a p (ECall v q args)) ->
  ready (runnable img) (k_syms k) hidden x c m s ->
  get_callable (ls_global (k_syms k)) (ascii_upper (vr_name v)) = Some md -> chosen md (length args) syn ->
  delivers powf (get_callable (ls_global (k_syms k))) (is_variable (k_syms k))
    (linked_calls powf k defined (value_calls (gpio_does perform) gpio_names others) (S n)) false s (wants syn args) (Ok [GValue (CInt z)]) s1 ->
  ascii_upper (vr_name v) = u "GPIO_READ" -> declared (k_syms k) (ascii_upper (vr_name a)) = Some TBoolean ->
  (is_pin z -> forall w r, perform (ReadPin (Z.to_N z)) (world s1) = (w, r) ->
     match r with
     | Ok level => outcome_of powf upcall (runnable img) (k_syms k) hidden x' c m
         (store (mkEnv (vals s1) w) (ascii_upper (vr_name a)) (Scalar (CBool level))) SigNormal
     | Err msg => exists c' m', runs powf upcall (runnable img) c m c' m' /\
         (gives_up powf upcall (runnable img) c' m' \/ fails powf upcall (runnable img) c' m' (XUpcall msg) w)
     end) /\
  (forall msg, bad_pin z msg -> exists c' m', runs powf upcall (runnable img) c m c' m' /\
     (gives_up powf upcall (runnable img) c' m' \/ fails powf upcall (runnable img) c' m' (XUpcall msg) (world s1))).
Proof.
  intros * LN CI FI R GC CH DE NV T. split.
  - intros IP w [b|msg] P.
    + apply (lib_function powf _ _ _ _ _ _ _ _ _ LN n hidden x x' a p v q args md syn [GValue (CInt z)] (Ok (Some (CBool b))) w TBoolean c m s s1); try assumption; [|reflexivity].
      rewrite NV. left. exists (ReadPin (Z.to_N z)), (Ok b). split; [apply Asks_read, IP|]. split; [exact P|]. apply Answered_level. eexists. reflexivity.
    + apply (lib_function powf _ _ _ _ _ _ _ _ _ LN n hidden x x' a p v q args md syn [GValue (CInt z)] (Err msg) w TBoolean c m s s1); try assumption.
      rewrite NV. left. exists (ReadPin (Z.to_N z)), (Err msg). split; [apply Asks_read, IP|]. split; [exact P|]. apply Answered_error.
  - intros msg BP.
    apply (lib_function powf _ _ _ _ _ _ _ _ _ LN n hidden x x' a p v q args md syn [GValue (CInt z)] (Err msg) (world s1) TBoolean c m s s1); try assumption.
    rewrite NV. right. exists msg. split; [apply Asks_read_pin, BP|auto].
Qed.
Print Assumptions C73_read.

(** ** The mock chip *)

(** With the mock, its two commands also do what they should. *)
Theorem C73_mock_obeys : forall img ups shared other others mds, host_obeys other img ups others mds shared ->
  host_obeys (lib_host mock_provided other ups) img ups
    (value_calls mock_does ([u "GPIO_MOCK_INJECT"; u "GPIO_MOCK_TRACE"] ++ gpio_names) others) (lib_upcalls mock_provided ++ mds) shared.
Proof. intros * OB. apply (lib_obeys img mock_provided); [exact OB|apply mock_provides]. Qed.
Print Assumptions C73_mock_obeys.

(** Its trace tells all the operations that did not fail, in order, and the levels that were
    read. *)
Theorem C73_trace : forall p l, history p l -> map deed_of (mk_trace p) = map Some l.
Proof. exact trace_history. Qed.
Print Assumptions C73_trace.

(** So does the text of the trace: two mocks with the same text got the same operations. *)
Theorem C73_trace_text : forall p l p' l', history p l -> history p' l' -> mock_trace_text p = mock_trace_text p' -> l = l'.
Proof.
  intros * H H' E. apply trace_text_inj in E. apply trace_history in H, H'. rewrite E, H' in H.
  clear -H. revert l H. induction l' as [|d' l' IH]; intros [|d l] E; try discriminate E; [reflexivity|]. injection E as -> E. f_equal. apply IH, E.
Qed.
Print Assumptions C73_trace_text.

(** Reads of the pins that were injected find their levels, in order, and leave the other ones. *)
Theorem C73_mock_reads : forall l rest p, mk_reads p = l ++ rest ->
  fst (reads_of (map fst l) p) = map (fun x => Ok (snd x)) l /\ mk_reads (snd (reads_of (map fst l) p)) = rest.
Proof. exact reads_in_order. Qed.
Print Assumptions C73_mock_reads.

(** A read of another pin fails, but it takes the level that was injected: the read of the right
    pin fails after it. *)
Theorem C73_failed_read_refuted : exists p p1 p2 e1 e2, mk_reads p = [(7, true)]%N /\
  mock_perform (ReadPin 8) p = (p1, Err e1) /\ mock_perform (ReadPin 7) p1 = (p2, Err e2).
Proof. exists (mkMock [(7, true)]%N []). do 4 eexists. split; [reflexivity|]. split; vm_compute; reflexivity. Qed.
Print Assumptions C73_failed_read_refuted.

(** A case:
<<
GPIO_MOCK_INJECT 7, TRUE
GPIO_SETUP 7, "in-pull-up"
x = GPIO_READ(7)
GPIO_WRITE 8, x
GPIO_CLEAR 7
t = GPIO_MOCK_TRACE
GPIO_SETUP 7, t
>>
    which fails after the trace [703 711 821 705]. *)
Definition mocking (ups : list ustr) := lib_host mock_provided no_host ups.
Definition p73 : list stmt :=
  [StCall (v_ "gpio_mock_inject") at_ [(Some (int_ 7), SepLong, at_); (Some (EBoolean true at_), SepEnd, at_)];
   StCall (v_ "gpio_setup") at_ [(Some (int_ 7), SepLong, at_); (Some (txt_ "in-pull-up"), SepEnd, at_)];
   set_ "x" (call_ "gpio_read" (int_ 7));
   StCall (v_ "gpio_write") at_ [(Some (int_ 8), SepLong, at_); (Some (var_ "x"), SepEnd, at_)];
   StCall (v_ "gpio_clear") at_ [(Some (int_ 7), SepEnd, at_)];
   set_ "t" (var_ "gpio_mock_trace");
   StCall (v_ "gpio_setup") at_ [(Some (int_ 7), SepLong, at_); (Some (var_ "t"), SepEnd, at_)]].
Example C73_machine_case : exists img, compile_new (lib_upcalls mock_provided) [] (p73, None) = (Compiled, img) /\
  forall powf, exists c m, runs powf (mocking (ci_upcalls img)) (runnable img) (ctx_new 100) (mkMem (heap_new 10000) mock_new) c m /\
    fails powf (mocking (ci_upcalls img)) (runnable img) c m (XUpcall (u "Unknown pin mode 703 711 821 705")) (mkMock [] [703; 711; 821; 705]%Z).
Proof.
  eexists. split; [vm_compute; reflexivity|]. intros powf. do 2 eexists. split; [talk_|].
  eapply fails_by; [left; vm_compute; reflexivity|vm_compute; reflexivity|vm_compute; reflexivity|vm_compute; reflexivity|vm_compute; reflexivity].
Qed.
Example C73_history_case : exists p, history p [Deed (SetupPin 7 ModeInPullUp); DeedRead 7 true; Deed ClearPins] /\
  mock_trace_text p = u "703 711 -1".
Proof.
  exists (mkMock [] [703; 711; -1]%Z). split.
  - apply (History_done (mkMock [] [703; 711]%Z) [Deed (SetupPin 7 ModeInPullUp); DeedRead 7 true] ClearPins _ true); [|reflexivity].
    apply (History_done (mkMock [(7%N, true)] [703%Z]) [Deed (SetupPin 7 ModeInPullUp)] (ReadPin 7) _ true); [|reflexivity].
    apply (History_done (mkMock [(7%N, true)] []) [] (SetupPin 7 ModeInPullUp) _ true); [|reflexivity].
    apply (History_inject mock_new [] 7%N true). apply History_new.
  - reflexivity.
Qed.

(** [GPIO_WRITE 300, TRUE] and [x = GPIO_READ(7)] through [C73_statement] and [C73_read], in a new
    machine where the chip reads high and the world is what it was asked for. *)
Definition chip (op : pin_op) (w : list pin_op) : list pin_op * res ustr bool := (w ++ [op], Ok true).
Definition upcalls73 : list (ustr * callable_md) := lib_upcalls (gpio_provided chip).
Definition chips (ups : list ustr) := lib_host (gpio_provided chip) no_host ups.
Definition calls73 := value_calls (gpio_does chip) gpio_names (@no_calls (list pin_op)).
Definition k73 : compiler := match compiler_new upcalls73 [] with COk k => k | _ => mkCompiler tctx_new (enter_scope (gs_new [])) end.
Definition x73 : sst := (set_gen (pop_eof (t_gen (k_ctx k73))) (k_ctx k73), k_syms k73).
Definition y73 (p : list stmt) : sst := match compile_stmts p x73 with COk x => x | _ => x73 end.
Definition k73' (p : list stmt) : compiler := snd (fst (compile_more k73 cimage_default (p, None))).
Definition img73 (p : list stmt) : cimage := snd (compile_more k73 cimage_default (p, None)).
Lemma hosted73 p locals : gs_user (ls_global (k_syms (k73' p))) = [] -> gs_upcalls (ls_global (k_syms (k73' p))) = upcalls73 ->
  gs_vars (ls_global (k_syms (k73' p))) = [] -> ls_locals (k_syms (k73' p)) = locals -> (locals = [] \/ locals = [(u "X", (PScalar TBoolean, 0%N))]) ->
  hosted (chips (ci_upcalls (img73 p))) (k73' p) (img73 p) calls73.
Proof.
  intros GU GP GV GL LC. split.
  - intros k. right. rewrite GV. reflexivity.
  - split.
    + intros k md. rewrite GU. discriminate.
    + intros k md. rewrite GP. unfold upcalls73, lib_upcalls, gpio_provided. cbn [map pv_name pv_md assoc].
      repeat match goal with |- context [ustr_eqb ?a k] => destruct (ustr_eqb a k); [intros E; injection E as <-; reflexivity|] end. discriminate.
    + intros k md _. rewrite GV. reflexivity.
    + intros k md t n i _. rewrite GL. destruct LC as [->| ->]; [discriminate|]. unfold id_get. cbn [find fst snd]. destruct (ustr_eqb (u "X") k); discriminate.
  - rewrite GP. unfold upcalls73. rewrite <- (app_nil_r (lib_upcalls _)). apply C73_gpio_obeys. split; try (intros; contradiction). reflexivity.
  - intros k gs s r s'. rewrite GP. intros [k0 gs0 s0 r0 w0 D|? ? ? ? ? _ []].
    assert (AK : exists o, asks_chip k0 gs0 o) by (destruct D as [(op & a & A & _)|(msg & A & _)]; eexists; exact A).
    destruct AK as [o A]. destruct A; vm_compute; discriminate.
Qed.

Definition args73 : list argspan := [(Some (int_ 300), SepLong, at_); (Some (EBoolean true at_), SepEnd, at_)].
Definition st73 : stmt := StCall (v_ "gpio_write") at_ args73.
Definition set73 : stmt := StAssignment (v_ "x") at_ (ECall (v_ "gpio_read") at_ [(Some (int_ 7), SepEnd, at_)]).
Lemma compiled73 : compiled_in upcalls73 [] (k73' [st73]) (img73 [st73]) x73 [st73] (y73 [st73]).
Proof.
  eapply (compiled_now upcalls73 [] [] k73 cimage_default [] [st73] []); [apply session_start; reflexivity| |reflexivity|]; vm_compute; reflexivity.
Qed.
Lemma compiled73' : compiled_in upcalls73 [] (k73' [set73]) (img73 [set73]) x73 [set73] (y73 [set73]).
Proof.
  eapply (compiled_now upcalls73 [] [] k73 cimage_default [] [set73] []); [apply session_start; reflexivity| |reflexivity|]; vm_compute; reflexivity.
Qed.
Lemma fine73 : stmt_fine (k_syms (k73' [st73])) st73.
Proof.
  intros e o O. inversion O; subst. split; [|discriminate]. match goal with H : In _ args73 |- _ => rename H into I end. cbn [args73 In] in I.
  repeat (destruct I as [I|I]; [try discriminate I; injection I as <- _ _; vm_compute; repeat split; try exact Logic.I; discriminate|]). destruct I.
Qed.
Lemma fine73_set : stmt_fine (k_syms (k73' [set73])) set73.
Proof. intros e o O. inversion O; subst. split; [vm_compute; repeat split; try exact Logic.I; discriminate|]. intros v E. injection E as <-. split; [intros w p L0; discriminate L0|]. left. vm_compute. reflexivity. Qed.
Lemma hosted73_st : hosted (chips (ci_upcalls (img73 [st73]))) (k73' [st73]) (img73 [st73]) calls73.
Proof. apply hosted73 with (locals := []); [vm_compute; reflexivity|vm_compute; reflexivity|vm_compute; reflexivity|vm_compute; reflexivity|left; reflexivity]. Qed.
Lemma hosted73_set : hosted (chips (ci_upcalls (img73 [set73]))) (k73' [set73]) (img73 [set73]) calls73.
Proof.
  apply hosted73 with (locals := [(u "X", (PScalar TBoolean, 0%N))]);
    [vm_compute; reflexivity|vm_compute; reflexivity|vm_compute; reflexivity|vm_compute; reflexivity|right; reflexivity].
Qed.
Example C73_statement_case : forall powf, exists c' m',
  runs powf (chips (ci_upcalls (img73 [st73]))) (runnable (img73 [st73])) (ctx_new 100) (mkMem (heap_new 10000) []) c' m' /\
  (gives_up powf (chips (ci_upcalls (img73 [st73]))) (runnable (img73 [st73])) c' m' \/
   fails powf (chips (ci_upcalls (img73 [st73]))) (runnable (img73 [st73])) c' m' (XUpcall (u "Pin number 300 is too large")) []).
Proof.
  intros powf.
  refine (C73_statement powf _ chip _ no_calls (fun _ _ => False) 0 (fun _ => None) upcalls73 [] (k73' [st73]) (img73 [st73]) x73 (y73 [st73])
    (v_ "gpio_write") at_ args73
    (mkMd (u "GPIO_WRITE") None false [mkSyntax [pin_arg (SepExactly SepLong); RequiredValue (u "value") TBoolean SepEndOnly] None] false)
    (mkSyntax [pin_arg (SepExactly SepLong); RequiredValue (u "value") TBoolean SepEndOnly] None) [GValue (CInt 300); GValue (CBool true)]
    (Err (u "Pin number 300 is too large")) _ _ (mkEnv (fun _ => None) []) (mkEnv (fun _ => None) [])
    (linked_nothing _ _ _ _ _ _ hosted73_st) compiled73 fine73 _ _ _ _ _ _).
  - split; [reflexivity|]. apply new_holds. reflexivity.
  - vm_compute. reflexivity.
  - exists [], []. split; [reflexivity|]. split; [reflexivity|intros y []].
  - unfold wants. cbn [sy_singular sy_repeated fixed_wants fixed_want args73 app int_ pin_arg].
    eapply (D_more _ _ _ _ _ _ _ _ [GValue (CInt 300)]); [apply G_plain; eapply A_value; [apply V_integer|reflexivity]|].
    eapply (D_more _ _ _ _ _ _ _ _ [GValue (CBool true)]); [apply G_plain; eapply A_value; [apply V_boolean|reflexivity]|apply D_none].
  - apply Asks_write_pin. apply (Pin_large 300 (u "300")); [lia|]. apply numeral68; [discriminate|repeat constructor; discriminate|intros r E; discriminate E|reflexivity].
  - discriminate.
Qed.
Example C73_read_case : forall powf, exists s', vals s' (u "X") = Some (Scalar (CBool true)) /\ world s' = [ReadPin 7] /\
  outcome_of powf (chips (ci_upcalls (img73 [set73]))) (runnable (img73 [set73])) (k_syms (k73' [set73])) (fun _ => None) (y73 [set73])
    (ctx_new 100) (mkMem (heap_new 10000) []) s' SigNormal.
Proof.
  intros powf. exists (store (mkEnv (fun _ => None) [ReadPin 7]) (u "X") (Scalar (CBool true))). split; [reflexivity|]. split; [reflexivity|].
  refine (proj1 (C73_read powf _ chip _ no_calls (fun _ _ => False) 0 (fun _ => None) upcalls73 [] (k73' [set73]) (img73 [set73]) x73 (y73 [set73])
    (v_ "x") at_ (v_ "gpio_read") at_ [(Some (int_ 7), SepEnd, at_)] (mkMd (u "GPIO_READ") (Some TBoolean) false [mkSyntax [pin_arg SepEndOnly] None] false)
    (mkSyntax [pin_arg SepEndOnly] None) 7 _ _ (mkEnv (fun _ => None) []) (mkEnv (fun _ => None) [])
    (linked_nothing _ _ _ _ _ _ hosted73_set) compiled73' fine73_set _ _ _ _ eq_refl _) _ [ReadPin 7] (Ok true) eq_refl).
  - split; [reflexivity|]. apply new_holds. reflexivity.
  - vm_compute. reflexivity.
  - exists [], []. split; [reflexivity|]. split; [reflexivity|intros y []].
  - unfold wants. cbn [sy_singular sy_repeated fixed_wants fixed_want app int_ pin_arg].
    eapply (D_more _ _ _ _ _ _ _ _ [GValue (CInt 7)]); [apply G_plain; eapply A_value; [apply V_integer|reflexivity]|apply D_none].
  - vm_compute. reflexivity.
  - split; discriminate.
Qed.
