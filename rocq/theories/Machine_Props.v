(** The machine of the standard library: C69 and C70. *)
From Coq Require Import String.
From Verif Require Import Base Bytecode_Model Mem_Model Mem_Spec Mem_Proofs Num_Model Vm_Model Vm_Spec Ids_Model Ast_Model Syms_Model Codegen_Model Exprs_Model
  Top_Model Incr_Spec Incr_Proofs Strings_Model Eval_Spec Call_Spec Exec_Spec Exec_Proofs User_Spec Run_Proofs Program_Proofs User_Proofs
  Host_Model Host_Case Exec_Props Lex_Model Lex_Spec Lex_Props Parse_Model Stmts_Model Stmts_Spec Stmts_Props Cmds_Model Cmds_Spec Cmds_Props
  Machine_Model Machine_Spec Machine_Proofs.
Local Open Scope string_scope.
Local Open Scope list_scope.
Local Open Scope nat_scope.

Section Theorems.
Context (powf : N -> N -> N) (alnum numeric : N -> bool) (uc : N -> list N) (show_msg : parse_msg -> ustr) {W : Type}
  (host : list ustr -> N -> N -> nat -> image -> ctx -> heap -> W -> option (upcall_result W))
  (callables : list (ustr * callable_md)) (global_defs : list global_def) (o : outside W).
Local Notation compile := (machine_compile alnum numeric uc show_msg).
Local Notation returns := (returns powf alnum numeric uc show_msg host callables global_defs o).
Local Notation upcall m := (host (ci_upcalls (mc_image m))).
Local Notation syms m := (k_syms (mc_compiler m)).

Lemma text_compiles text w end_ l (m m1 : machine (W := W)) : Lex_Spec.tables_ok alnum numeric uc -> tokenised alnum numeric uc text (1, 1)%N w end_ -> program end_ l w ->
  compile text m = Some (m1, Ok tt) ->
  compile_more (mc_compiler m) (mc_image m) (l, None) = (Compiled, mc_compiler m1, mc_image m1) /\ mc_vm m1 = mc_vm m.
Proof.
  intros TO T P. unfold machine_compile, text_source.
  pose proof (C65_text _ _ _ TO _ _ _ _ T P) as PA. 
  assert (E : snd (tokens alnum numeric uc text) = end_).
  { unfold tokens. rewrite (Lex_Proofs.tokenised_read_all alnum numeric uc TO _ _ _ _ T) by lia. reflexivity. }
  destruct (tokens alnum numeric uc text) as [ts e]. cbn [fst snd] in *. subst e. rewrite PA.
  destruct (compile_more (mc_compiler m) (mc_image m) (l, None)) as [[oc k] i]. destruct oc; [|discriminate|discriminate].
  intros E. injection E as <-. split; reflexivity.
Qed.

(** * C69 *)

(** An input of a session: a text that the machine accepts runs as its statements [l] say, from the
    contents [s] of the variables and the world.  At the end the machine waits for another input,
    with the contents that the statements left; END gives its exit code to the user.  An error is
    given to the user too. *)
Theorem C69_input : forall (m m1 : machine (W := W)) srcs hidden s text w end_ l defined does n d s' g,
  Lex_Spec.tables_ok alnum numeric uc -> tokenised alnum numeric uc text (1, 1)%N w end_ -> program end_ l w ->
  session callables global_defs srcs (mc_compiler m) (mc_image m) -> at_rest m hidden s ->
  compile text m = Some (m1, Ok tt) ->
  linked callables global_defs (upcall m1) (mc_compiler m1) (mc_image m1) defined does ->
  Forall (stmt_fine (syms m1)) l -> undisturbed powf host o m1 ->
  execs_in powf (syms m1) (linked_calls powf (mc_compiler m1) defined does n) (linked_subs powf (mc_compiler m1) defined does n d s l) s l s' g ->
  session callables global_defs (srcs ++ [(l, None)]) (mc_compiler m1) (mc_image m1) /\
  (overflows powf host m1 \/
   match g with
   | SigNormal => exists m2, returns m1 (Ended m2 (Ok None)) /\ same_program m1 m2 /\ parked m2 /\ at_rest m2 hidden s'
   | SigEnd code => exists m2, returns m1 (Ended m2 (Ok (Some (Z.of_N code)))) /\ same_program m1 m2 /\ parked m2 /\ at_rest m2 hidden s'
   | SigError e => no_handler m1 -> exists m2 pos, returns m1 (Ended m2 (Err (MeRuntime pos e))) /\ same_program m1 m2 /\ parked m2 /\
       machine_world m2 = world s'
   | _ => True
   end).
Proof.
  intros * TO T P SE R C LN FI UN X. destruct (text_compiles _ _ _ _ _ _ TO T P C) as [H V].
  split; [econstructor; eassumption|].
  destruct (compiled_ends powf alnum numeric uc show_msg host callables global_defs o false m m1 srcs l hidden s s' g defined does n d SE R H V LN FI UN X) as [O|F]; [left; exact O|right].
  destruct g; exact F.
Qed.

(** A text that it refuses changes nothing. *)
Theorem C69_refused : forall (m : machine (W := W)) text m1 e, compile text m = Some (m1, Err e) -> m1 = m.
Proof.
  intros m text m1 e. unfold machine_compile. destruct (text_source _ _ _ _ text) as [src|]; [|discriminate].
  destruct (compile_more (mc_compiler m) (mc_image m) src) as [[oc k] i] eqn:E.
  destruct oc as [|e0|]; [discriminate| |discriminate]. intros Q. injection Q as <- _.
  destruct (compile_more_fails _ _ _ _ _ _ E ltac:(discriminate)) as [-> ->]. destruct m; reflexivity.
Qed.

(** A new machine waits for input and has no variables. *)
Theorem C69_new : forall max size (w : W) m, machine_new callables [] max size w = Some m -> (N.of_nat max < 2 ^ 24)%N ->
  session callables [] [] (mc_compiler m) (mc_image m) /\ parked m /\ at_rest m (fun _ => None) (nothing w).
Proof.
  intros max size w m H SM. unfold machine_new in H. destruct (compiler_new callables []) as [k| |] eqn:K; try discriminate H.
  injection H as <-. apply (new_rests callables (mkMachine k cimage_default (vm_new W max size w)) k K); try reflexivity; [exact SM|]. apply heap_ok_new.
Qed.

(** * C70 *)

(** After that, and also after an error or an interruption, running the machine again does nothing
    as long as there is no more input. *)
Theorem C70_again : forall (m : machine (W := W)) srcs, session callables global_defs srcs (mc_compiler m) (mc_image m) -> parked m -> calm o (machine_world m) ->
  exists m2, returns m (Ended m2 (Ok None)) /\ same_program m m2 /\ parked m2 /\ mem_of m2 = mem_of m /\
    set_yield (ctx_of m2) false = set_yield (ctx_of m) false.
Proof.
  intros m srcs SE P Q.
  destruct (parked_ends powf alnum numeric uc show_msg host callables global_defs o false m srcs SE P Q) as (c & E & X).
  exists (put m c (mem_of m) (machine_world m)). split; [exact X|]. split; [split; reflexivity|]. split; [|split; [reflexivity|exact E]].
  split; [reflexivity|]. destruct P as [_ P]. change (S (c_pc c) = length (ci_code (mc_image m))). rewrite <- P.
  change (c_pc c) with (c_pc (set_yield c false)). rewrite E. reflexivity.
Qed.

(** A signal that comes when the program yields stops it.  The next input starts with the contents
    that the variables had. *)
Theorem C70_break : forall (m : machine (W := W)) srcs c h c1 h1 w, session callables global_defs srcs (mc_compiler m) (mc_image m) ->
  v_pending W (mc_vm m) = None -> calmly powf host o m (ctx_of m) (mem_of m) c h ->
  Vm_Model.step powf (runnable (mc_image m)) c h = RStop SYield c1 h1 -> o_receive o (o_yield_now o (m_world h)) = (w, true) ->
  exists m2, returns m (Ended m2 (Err MeBreak)) /\ same_program m m2 /\ parked m2 /\ machine_world m2 = w /\
    forall hidden x l x' s, compiled_in callables global_defs (mc_compiler m) (mc_image m) x l x' -> no_shadowing (syms m) ->
      s_pc (start_of (mc_compiler m)) = length (ci_code (mc_image m)) - 1 ->
      ready (runnable (mc_image m)) (syms m) hidden x c h s -> at_rest m2 hidden (mkEnv (vals s) w).
Proof.
  intros m srcs c h c1 h1 w SE P CA ST RE.
  pose proof (proj1 (proj2 (session_ends _ _ _ _ _ SE))) as L1.
  exists (put m (park_at_eof (runnable (mc_image m)) c1) h1 w). split; [|split; [split; reflexivity|split; [split; [reflexivity|]|split; [reflexivity|]]]].
  - pose proof (break_yield powf alnum numeric uc show_msg host callables global_defs o false m c h (m_world h) c1 h1 w ST RE) as B.
    apply (calmly_back _ _ _ _ _ _ _ _ _ _ _ _ _ _ _ _ CA) in B. rewrite (put_self m P) in B. exact B.
  - change (S (length (ci_code (mc_image m)) - 1) = length (ci_code (mc_image m))). lia.
  - intros hidden x l x' s CI NS SP [PC HD]. split; [reflexivity|]. split; [symmetry; exact SP|].
    destruct (Vm_Proofs.step_stop _ _ _ _ _ _ _ ST) as [(_ & _ & _ & -> & ->)|(i & _ & D & _)]; [|destruct (dispatch_no_yield _ _ _ _ _ _ _ D)].
    destruct (compiled_has _ _ _ _ _ _ _ CI) as (HS & OX & OX' & C & LT).
    assert (EX : ext (snd x) (syms m)).
    { eapply ext_trans; [|apply (has_syms _ _ _ _ _ _ HS)]. apply ext_grows. apply (Top_Proofs.sg_syms _ _ _ (Layout_Proofs.stmts_bframe _ _ _ C (Layout_Proofs.ok_wf _ OX))). }
    assert (HD' : holding (syms m) hidden (ci_constants (mc_image m)) (syms m) None (set_yield c false) h s).
    { eapply holding_later; [| |intros i d E; exact E|exact HD].
      - destruct EX as (E1 & _). split; [exact E1|]. split; [exists []; symmetry; apply app_nil_r|]. split; [reflexivity|auto].
      - intros k. cbn [by_now ls_locals ls_global]. apply NS. }
    apply (holding_ctx _ _ _ _ c (park_at_eof (runnable (mc_image m)) (set_yield c false)) h s (mkEnv (vals s) w) HD'); reflexivity.
Qed.

(** A signal that comes while a command of the host runs stops the program after the command.  The
    actions that were requested are dropped. *)
Theorem C70_break_after_command : forall (m : machine (W := W)) srcs c h idx first pc c1 h1 r w, session callables global_defs srcs (mc_compiler m) (mc_image m) ->
  v_pending W (mc_vm m) = None -> calmly powf host o m (ctx_of m) (mem_of m) c h ->
  Vm_Model.step powf (runnable (mc_image m)) c h = RStop (SUpcallAsync idx first pc) c1 h1 ->
  upcall m idx first pc (runnable (mc_image m)) c1 h1 (m_world h) = Some r -> u_failure W r = None ->
  o_receive o (u_world W r) = (w, true) ->
  exists m2, returns m (Ended m2 (Err MeBreak)) /\ same_program m m2 /\ parked m2 /\ machine_world m2 = fst (o_take_actions o w).
Proof.
  intros m srcs c h idx first pc c1 h1 r w SE P CA ST U F RE.
  pose proof (proj1 (proj2 (session_ends _ _ _ _ _ SE))) as L1.
  eexists. split.
  - pose proof (async_stop powf alnum numeric uc show_msg host callables global_defs o false m c h (m_world h) idx first pc c1 h1 r 0) as B.
    assert (B' := fun y => B y ST U F). clear B. unfold should_stop, served, machine_world in B'. cbn [put set_vm mc_vm v_world] in B'. rewrite RE in B'.
    pose proof (B' _ eq_refl) as B. clear B'.
    apply (calmly_back _ _ _ _ _ _ _ _ _ _ _ _ _ _ _ _ CA) in B. rewrite (put_self m P) in B. exact B.
  - split; [split; reflexivity|]. split; [split; [reflexivity|]|reflexivity].
    change (S (length (ci_code (mc_image m)) - 1) = length (ci_code (mc_image m))). lia.
Qed.

(** Clearing a machine gives one without variables and program. *)
Theorem C70_clear : forall (m m1 : machine (W := W)), machine_clear callables [] o m = Some m1 -> (N.of_nat (c_max (ctx_of m)) < 2 ^ 24)%N ->
  session callables [] [] (mc_compiler m1) (mc_image m1) /\ parked m1 /\ c_handler (ctx_of m1) = HNone /\ Forall (eq 0%N) (c_regs (ctx_of m1)) /\
  at_rest m1 (fun _ => None) (nothing (o_reset_state o (machine_world m))).
Proof.
  intros m m1 H SM. unfold machine_clear in H. destruct (compiler_new callables []) as [k| |] eqn:K; try discriminate H.
  injection H as <-.
  match goal with |- context [at_rest ?x _ _] => destruct (new_rests callables x k K) as (A & B & C); try reflexivity; [exact SM|apply heap_ok_new|] end.
  split; [exact A|]. split; [exact B|]. split; [reflexivity|]. split; [|exact C].
  apply Forall_forall. intros x I. change (In x (map (fun _ => 0%N) (c_regs (ctx_of m)))) in I. apply in_map_iff in I. destruct I as (y & E & _). exact E.
Qed.

(** A program that clears the machine ends right there, and whatever follows the command is not
    run. *)
Theorem C70_clear_ends : forall (m : machine (W := W)) c h idx first pc c1 h1 r w w2 m1, global_defs = [] ->
  v_pending W (mc_vm m) = None -> calmly powf host o m (ctx_of m) (mem_of m) c h -> (N.of_nat (c_max c) < 2 ^ 24)%N ->
  Vm_Model.step powf (runnable (mc_image m)) c h = RStop (SUpcallAsync idx first pc) c1 h1 ->
  upcall m idx first pc (runnable (mc_image m)) c1 h1 (m_world h) = Some r -> u_failure W r = None ->
  o_receive o (u_world W r) = (w, false) -> o_take_actions o w = (w2, [MaClear]) ->
  machine_clear callables [] o (served m c1 r w2) = Some m1 ->
  returns m (Ended m1 (Ok None)) /\ parked m1 /\ at_rest m1 (fun _ => None) (nothing (o_reset_state o w2)).
Proof.
  intros m c h idx first pc c1 h1 r w w2 m1 GD P CA SM ST U F RE TA MC.
  assert (SM1 : (N.of_nat (c_max (ctx_of (served m c1 r w2))) < 2 ^ 24)%N).
  { destruct (Vm_Proofs.step_stop _ _ _ _ _ _ _ ST) as [(X & _)|(i & _ & X & _)]; [discriminate X|].
    destruct (Vm_Proofs.dispatch_upcall _ _ _ _ _ _ _ _ _ _ _ (or_intror eq_refl) X) as (-> & _ & _). exact SM. }
  destruct (C70_clear _ _ MC SM1) as (SE1 & PA & HN & RZ & AR).
  split; [|auto].
  assert (PE : v_pending W (mc_vm m1) = None) by apply PA.
  assert (ST1 : Vm_Model.step powf (runnable (mc_image m1)) (ctx_of m1) (mem_of m1) = RStop SEof (ctx_of m1) (mem_of m1)).
  { unfold machine_clear in MC. destruct (compiler_new callables []) as [k| |]; try discriminate MC. injection MC as <-. reflexivity. }
  pose proof (eof_ends powf alnum numeric uc show_msg host callables global_defs o m1 (ctx_of m1) (mem_of m1) (m_world (mem_of m1)) false _ _ ST1) as Q.
  change (m_heap (mem_of m1)) with (m_heap (mem_of m1)) in Q. rewrite (put_self m1 PE) in Q. destruct Q as [n Q].
  subst global_defs.
  pose proof (async_stop powf alnum numeric uc show_msg host callables [] o false m c h (m_world h) idx first pc c1 h1 r n) as B.
  specialize (B (Ended m1 (Ok None)) ST U F). unfold should_stop, served, machine_world in B. cbn [put set_vm mc_vm v_world] in B. rewrite RE in B.
  unfold drain_actions, machine_world, set_world, vm_set_world in B. cbn [put set_vm mc_vm v_world mc_compiler mc_image v_ctx v_heap v_last_error v_pending] in B.
  rewrite TA in B. cbn [apply_actions] in B. 
  match type of B with context [machine_clear callables [] o ?x] => change x with (served m c1 r w2) in B end.
  rewrite MC in B. cbn [orb] in B. specialize (B Q).
  apply (calmly_back _ _ _ _ _ _ _ _ _ _ _ _ _ _ _ _ CA) in B. rewrite (put_self m P) in B. exact B.
Qed.

(** A program that asks for another one to be run makes room for it and runs it.  It does not end
    the session: its exit code is printed.  When it has ended, no error handler is left. *)
Theorem C70_run : forall (m : machine (W := W)) c h idx first pc c1 h1 r w w2 m1 text tw end_ l defined does n d s' g, global_defs = [] ->
  v_pending W (mc_vm m) = None -> calmly powf host o m (ctx_of m) (mem_of m) c h -> (N.of_nat (c_max c) < 2 ^ 24)%N ->
  Vm_Model.step powf (runnable (mc_image m)) c h = RStop (SUpcallAsync idx first pc) c1 h1 ->
  upcall m idx first pc (runnable (mc_image m)) c1 h1 (m_world h) = Some r -> u_failure W r = None ->
  o_receive o (u_world W r) = (w, false) -> o_take_actions o w = (w2, [MaRun text]) ->
  Lex_Spec.tables_ok alnum numeric uc -> tokenised alnum numeric uc text (1, 1)%N tw end_ -> program end_ l tw ->
  machine_run alnum numeric uc show_msg callables [] o text (served m c1 r w2) = Some (m1, Ok tt) ->
  linked callables [] (upcall m1) (mc_compiler m1) (mc_image m1) defined does ->
  Forall (stmt_fine (syms m1)) l -> undisturbed powf host o m1 ->
  execs_in powf (syms m1) (linked_calls powf (mc_compiler m1) defined does n)
    (linked_subs powf (mc_compiler m1) defined does n d (nothing (o_reset_state o w2)) l) (nothing (o_reset_state o w2)) l s' g ->
  overflows powf host m1 \/
  match g with
  | SigNormal | SigEnd 0 => exists m2, returns m (Ended m2 (Ok None)) /\ same_program m1 m2 /\ c_handler (ctx_of m2) = HNone /\
      at_rest m2 (fun _ => None) s'
  | SigEnd code => forall w3, o_print_line o (u "Program exited with code " ++ to_string (Z.of_N code)) (world s') = (w3, None) ->
      exists m2, returns m (Ended m2 (Ok None)) /\ same_program m1 m2 /\ c_handler (ctx_of m2) = HNone /\
        at_rest m2 (fun _ => None) (mkEnv (vals s') w3)
  | SigError e => no_handler m1 -> exists m2 pos, returns m (Ended m2 (Err (MeRuntime pos e))) /\ same_program m1 m2 /\ machine_world m2 = world s'
  | _ => True
  end.
Proof.
  intros m c h idx first pc c1 h1 r w w2 m1 text tw end_ l defined does n d s' g GD P CA SM ST U F RE TA TO T PR MR LN FI UN X.
  assert (SM1 : (N.of_nat (c_max (ctx_of (served m c1 r w2))) < 2 ^ 24)%N).
  { destruct (Vm_Proofs.step_stop _ _ _ _ _ _ _ ST) as [(Y & _)|(i & _ & Y & _)]; [discriminate Y|].
    destruct (Vm_Proofs.dispatch_upcall _ _ _ _ _ _ _ _ _ _ _ (or_intror eq_refl) Y) as (-> & _ & _). exact SM. }
  unfold machine_run in MR. destruct (machine_clear callables [] o (served m c1 r w2)) as [m0|] eqn:MC; [|discriminate MR].
  destruct (C70_clear _ _ MC SM1) as (SE & PA & HN & RZ & AR).
  destruct (text_compiles _ _ _ _ _ _ TO T PR MR) as [H V]. subst global_defs.
  assert (BACK : forall y, ends powf alnum numeric uc show_msg host callables [] o true m1 y ->
    ends powf alnum numeric uc show_msg host callables [] o false m y).
  { intros y [k Q].
    pose proof (async_stop powf alnum numeric uc show_msg host callables [] o false m c h (m_world h) idx first pc c1 h1 r k) as B.
    specialize (B y ST U F). unfold should_stop, served, machine_world in B. cbn [put set_vm mc_vm v_world] in B. rewrite RE in B.
    unfold drain_actions, machine_world, set_world, vm_set_world in B. cbn [put set_vm mc_vm v_world mc_compiler mc_image v_ctx v_heap v_last_error v_pending] in B.
    rewrite TA in B. cbn [apply_actions] in B. unfold machine_run in B.
    match type of B with context [machine_clear callables [] o ?x] => change x with (served m c1 r w2) in B end.
    rewrite MC, MR in B. cbn [orb] in B. specialize (B Q).
    apply (calmly_back _ _ _ _ _ _ _ _ _ _ _ _ _ _ _ _ CA) in B. rewrite (put_self m P) in B. exact B. }
  destruct (compiled_ends powf alnum numeric uc show_msg host callables [] o true m0 m1 [] l _ _ s' g defined does n d SE AR H V LN FI UN X) as [O|FN]; [left; exact O|right].
  destruct g as [| | | |code| | |]; try exact Logic.I.
  - destruct FN as (m2 & E & S1 & _ & R). exists (clear_error_handler m2). split; [apply BACK; exact E|]. split; [exact S1|]. split; [reflexivity|apply rest_handler, R].
  - destruct FN as (m2 & E & S1 & _ & R). destruct code as [|q].
    + exists (clear_error_handler m2). split; [apply BACK; exact E|]. split; [exact S1|]. split; [reflexivity|apply rest_handler, R].
    + intros w3 PL. exists (clear_error_handler (set_world m2 w3)). split; [apply BACK|split; [exact S1|split; [reflexivity|apply rest_handler, rest_world, R]]].
      unfold finish in E. cbn [negb N.eqb] in E.
      assert (WE : machine_world m2 = world s') by (destruct R as (_ & _ & R); apply (hd_world _ _ _ _ _ _ _ _ R)).
      rewrite WE, PL in E. exact E.
  - intros NH. destruct (FN NH) as (m2 & pos & E & S1 & _ & R). exists (clear_error_handler m2), pos. split; [apply BACK; exact E|]. split; [exact S1|exact R].
Qed.
End Theorems.
Print Assumptions C69_input.
Print Assumptions C69_refused.
Print Assumptions C69_new.
Print Assumptions C70_again.
Print Assumptions C70_break.
Print Assumptions C70_break_after_command.
Print Assumptions C70_clear.
Print Assumptions C70_clear_ends.
Print Assumptions C70_run.

(** * A case *)

(** A world: what was done to the console, the actions that were requested, and whether there is a
    signal. *)
Definition world70 : Type := list con_op * list machine_action * bool.
Definition keep70 (op : con_op) (w : world70) : world70 * option ustr := let '(l, a, s) := w in ((l ++ [op], a, s), None).
Definition outside70 : outside world70 :=
  mkOutside world70 (fun w => let '(l, a, s) := w in ((l, [], s), a)) (fun w => let '(l, a, s) := w in ((l, a, false), s)) (fun w => w) (fun w => w)
    (fun t w => keep70 (OpPrint t) w).
(** The commands of the console, and CLEAR and RUN, which runs [END 3]. *)
Definition requests (ups : list ustr) (idx first : N) (pc : nat) (img : image) (c : ctx) (h : heap) (w : world70) : option (upcall_result world70) :=
  let '(l, a, s) := w in
  match nth_error ups (N.to_nat idx) with
  | Some k => if ustr_eqb k (u "CLEAR") then Some (mkUpcall _ (c_regs c) h (l, a ++ [MaClear], s) None)
              else if ustr_eqb k (u "RUN") then Some (mkUpcall _ (c_regs c) h (l, a ++ [MaRun (u "END 3")], s) None)
              else None
  | None => None
  end.
Definition host70 (ups : list ustr) := console_host (fun _ => u "1.5") keep70 (fun _ => Ok (80, 24)%N) (requests ups) ups.
Definition more70 : list (ustr * callable_md) :=
  [(u "CLEAR", mkMd (u "CLEAR") None true [mkSyntax [] None] false); (u "RUN", mkMd (u "RUN") None true [mkSyntax [] None] false)].
Definition upcalls70 : list (ustr * callable_md) := console_upcalls ++ more70.
Definition w70 : world70 := ([], [], false).
Definition new70 : machine :=
  match machine_new upcalls70 [] 100 10000 w70 with Some m => m | None => mkMachine k67 cimage_default (vm_new _ 0 0 w70) end.
Definition compile_ (text : ustr) (m : machine (W := world70)) := machine_compile alnum_ numeric_ upper_ (fun _ => []) text m.
Definition compiled (text : ustr) (m : machine (W := world70)) : machine := match compile_ text m with Some (m1, _) => m1 | None => m end.
Definition exec_ powf (m : machine (W := world70)) := machine_exec powf alnum_ numeric_ upper_ (fun _ => []) host70 upcalls70 [] outside70 200 m.
Definition line (t : ustr) : ustr := t ++ [10%N].

(** [input powf text m m' r]: [m] takes the input [text], runs it, gives [r] and is then [m']. *)
Definition input powf (text : ustr) (m m' : machine) (r : res machine_error (option Z)) : Prop :=
  exists m1, compile_ text m = Some (m1, Ok tt) /\ exec_ powf m1 = Some (Ended m' r).
Ltac input_ := eexists; split; [vm_compute; reflexivity|vm_compute; reflexivity].

(** An error within a subroutine leaves the machine in it: the next input does not see the
    variables of the program any more.  After
<<
x = 4
>>
    and
<<
SUB f
y = 3 MOD 0
END SUB
f
>>
    [PRINT x] prints 3, while without the second input it prints 4. *)
Theorem C70_after_error_refuted : forall powf, exists m1 m2 m3 m4 pos,
  input powf (u "x = 4") new70 m1 (Ok None) /\
  input powf (u "PRINT x") m1 m4 (Ok None) /\ machine_world m4 = ([OpPrint (u " 4")], [], false) /\
  input powf (line (u "SUB f") ++ line (u "y = 3 MOD 0") ++ line (u "END SUB") ++ u "f") m1 m2 (Err (MeRuntime pos (XInt EModZero))) /\
  input powf (u "PRINT x") m2 m3 (Ok None) /\ machine_world m3 = ([OpPrint (u " 3")], [], false).
Proof.
  intros powf. do 5 eexists. split; [input_|]. split; [input_|]. split; [vm_compute; reflexivity|]. split; [input_|]. split; [input_|vm_compute; reflexivity].
Qed.
Print Assumptions C70_after_error_refuted.

(** * C69 *)

(** The input
<<
x = 4
PRINT x
END 3
>>
*)
Definition text69 : ustr := line (u "x = 4") ++ line (u "PRINT x") ++ u "END 3".
Definition m69 : machine := compiled text69 new70.
Definition tokens69 : list tokspan := fst (tokens alnum_ numeric_ upper_ text69).
Definition end69 : linecol := snd (tokens alnum_ numeric_ upper_ text69).
Definition l69 : list stmt := fst (parse_stmts end69 tokens69).
Lemma not_in {A} (x : A) l : Forall (fun y => y <> x) l -> ~ In x l.
Proof. intros F I. exact (proj1 (Forall_forall _ _) F _ I eq_refl). Qed.
Ltac none_ := vm_compute; repeat (apply Forall_cons; [discriminate|]); apply Forall_nil.
Lemma usual_plain w : Forall (fun t => ~ In (fst t) [TkNot; TkLeftParen; TkEof]) w -> usual_program w.
Proof.
  intros F. assert (Q : forall t p, In (t, p) w -> ~ In t [TkNot; TkLeftParen; TkEof]) by (intros t p I; exact (proj1 (Forall_forall _ _) F _ I)).
  constructor.
  - intros a b x p q -> _. exfalso. apply (Q TkNot q); [apply in_or_app; right; right; left; reflexivity|left; reflexivity].
  - intros a b p q ->. apply (Q TkLeftParen q); [apply in_or_app; right; right; left; reflexivity|right; left; reflexivity].
  - intros a b p q ->. exfalso. apply (Q TkLeftParen p); [apply in_or_app; right; left; reflexivity|right; left; reflexivity].
  - intros p I. apply (Q _ _ I). right; right; left; reflexivity.
Qed.
Ltac plain_ := apply usual_plain; vm_compute; repeat (apply Forall_cons; [intros X; repeat (destruct X as [X|X]; [discriminate X|]); exact X|]); apply Forall_nil.
Lemma no_bad (l : list tokspan) : Forall (fun t => match fst t with TkBad _ => False | _ => True end) l -> forall m q, ~ In (TkBad m, q) l.
Proof. intros F m q I. exact (proj1 (Forall_forall _ _) F _ I). Qed.
Lemma tokenised69 : tokenised alnum_ numeric_ upper_ text69 (1, 1)%N tokens69 end69.
Proof.
  apply (C55_tokens _ _ _ tables_); [reflexivity|]. split; [vm_compute; reflexivity|].
  apply no_bad. vm_compute. repeat (apply Forall_cons; [exact Logic.I|]). apply Forall_nil.
Qed.
Lemma program69 : program end69 l69 tokens69.
Proof. apply C65_only_programs; [plain_|vm_compute; reflexivity]. Qed.

Lemma names70 k md : assoc upcalls70 k = Some md -> md_user md = false /\ In k (map fst upcalls70).
Proof.
  unfold upcalls70, console_upcalls, more70. cbn [assoc map fst In app].
  repeat match goal with |- context [ustr_eqb ?a k] => destruct (ustr_eqb a k) eqn:?; [|] end;
    repeat match goal with E : ustr_eqb _ _ = true |- _ => apply ustr_eqb_eq in E; subst k end;
    intros E; try discriminate E; injection E as <-; auto 10.
Qed.
Definition calls70 := console_calls (fun _ => u "1.5") keep70 (fun _ => Ok (80, 24)%N) no_calls.
(** Programs without definitions, shared variables and arrays. *)
Lemma hosted70 (m : machine (W := world70)) : gs_user (ls_global (k_syms (mc_compiler m))) = [] -> gs_upcalls (ls_global (k_syms (mc_compiler m))) = upcalls70 ->
  gs_vars (ls_global (k_syms (mc_compiler m))) = [] ->
  Forall (fun e => match fst (snd e) with PScalar _ => True | PArray _ _ => False end) (ls_locals (k_syms (mc_compiler m))) ->
  hosted (host70 (ci_upcalls (mc_image m))) (mc_compiler m) (mc_image m) calls70.
Proof.
  intros GU GP GV GL. split.
  - intros k. right. rewrite GV. reflexivity.
  - split.
    + intros k md. rewrite GU. discriminate.
    + intros k md. rewrite GP. apply names70.
    + intros k md _. rewrite GV. reflexivity.
    + intros k md t n i _. induction GL as [|[k' [p q]] l F _ IH]; cbn [id_get]; [discriminate|].
      destruct (ustr_eqb k' k); [|exact IH]. intros E. injection E as -> _. exact F.
  - rewrite GP. apply C67_console_obeys. split; try (intros; contradiction).
    intros idx first pc c c' h [[l a] s] R F. unfold requests. rewrite R. reflexivity.
  - intros k gs s r s'. rewrite GP. intros [| | | | | | | |? ? ? ? ? _ []]; vm_compute; discriminate.
Qed.
Lemma linked69 : linked upcalls70 [] (host70 (ci_upcalls (mc_image m69))) (mc_compiler m69) (mc_image m69) (fun _ _ => False) calls70.
Proof. apply linked_nothing, hosted70; try (vm_compute; reflexivity). vm_compute. repeat (apply Forall_cons; [exact Logic.I|]). apply Forall_nil. Qed.
Lemma calm70 w : snd w = false /\ snd (fst w) = [] -> calm outside70 w.
Proof. destruct w as [[l a] s]. cbn. intros [-> ->]. repeat split. Qed.

(** A program that calls neither CLEAR nor RUN is left alone. *)
Lemma undisturbed70 powf (m : machine (W := world70)) : calm outside70 (machine_world m) ->
  ~ In (u "CLEAR") (ci_upcalls (mc_image m)) -> ~ In (u "RUN") (ci_upcalls (mc_image m)) -> undisturbed powf host70 outside70 m.
Proof.
  intros CA NC NR.
  assert (U : forall idx first pc img c h w r, host70 (ci_upcalls (mc_image m)) idx first pc img c h w = Some r -> calm outside70 w -> calm outside70 (u_world _ r)).
  { intros idx first pc img c h [[l a] s] r H C. destruct C as (C1 & C2 & _). cbn in C1, C2. injection C1 as <-. injection C2 as <-.
    apply calm70. revert H. unfold host70, console_host, requests.
    destruct (nth_error (ci_upcalls (mc_image m)) (N.to_nat idx)) as [k|] eqn:E; [|discriminate]. apply nth_error_In in E.
    repeat match goal with |- context [if ustr_eqb k ?x then _ else _] => destruct (ustr_eqb k x) eqn:? end;
      try (match goal with Q : ustr_eqb k _ = true |- _ => apply ustr_eqb_eq in Q; subst k; contradiction end);
      unfold finish_op, scr_exec, keep70; intros H;
      repeat match type of H with match ?x with _ => _ end = _ => destruct x end; try discriminate H; injection H as <-; split; reflexivity. }
  intros c h R. unfold continues in R.
  assert (CH : calm outside70 (m_world h)).
  { change (machine_world m) with (m_world (mem_of m)) in CA. induction R as [| | |c0 m0 idx first pc c1 h1 r c2 m2 A Q F R IH]; auto. apply IH. exact (U _ _ _ _ _ _ _ _ Q CA). }
  split; [exact CH|]. intros e w F. destruct F as [|idx first pc c1 h1 r p msg A Q _]; [exact CH|exact (U _ _ _ _ _ _ _ _ Q CH)].
Qed.

Lemma print_does69 : print_does (fun _ => u "1.5") [(Some (CInt 4), SepEnd)] (OpPrint (u " 4")).
Proof.
  apply Does_print; [|right; exists [], (CInt 4); reflexivity].
  eapply Spells_value with (v := u " 4"); [apply (Shows_positive _ 4 (u "4")); [lia|]|apply After_last].
  split; [repeat constructor; discriminate|]. split; [discriminate|]. split; [intros r E; discriminate E|reflexivity].
Qed.
Lemma execs69 powf : exists s',
  execs_in powf (k_syms (mc_compiler m69)) (linked_calls powf (mc_compiler m69) (fun _ _ => False) calls70 0)
    (linked_subs powf (mc_compiler m69) (fun _ _ => False) calls70 0 0 (nothing w70) l69) (nothing w70) l69 s' (SigEnd 3) /\
  vals s' (u "X") = Some (Scalar (CInt 4)) /\ world s' = ([OpPrint (u " 4")], [], false).
Proof.
  eexists. split.
  - unfold execs_in. assert (E : l69 = ltac:(let x := eval vm_compute in l69 in exact x)) by (vm_compute; reflexivity). rewrite E. clear E.
    straight_. eapply E_cons; [eapply E_assign; [reflexivity|vm_compute; reflexivity|ev]|].
    eapply E_cons; [eapply (E_call _ _ _ _ _ _ _ _ _ _ _ _ _ _ _ _ (mkEnv _ ([OpPrint (u " 4")], [], false))); [reflexivity|vm_compute; reflexivity| | |]|].
    + exists [], []. split; [reflexivity|]. split; [split; [vm_compute; repeat constructor|discriminate]|intros ? []].
    + eapply D_more; [eapply G_tagged; ev|apply D_none].
    + eapply (Calls_print _ _ _ _ _ [(Some (CInt 4), SepEnd)]); [|vm_compute; repeat constructor|exact print_does69|exists None; repeat split; reflexivity].
      exists [], (Some (CInt 4)). split; [reflexivity|]. apply Forall_nil.
    + eapply E_cons_leaves; [eapply (E_end_code _ _ _ _ _ _ _ _ _ _ 3); [ev|lia]|discriminate].
  - split; [vm_compute; reflexivity|reflexivity].
Qed.
Lemma apart70 L v e : gs_user (ls_global L) = [] -> gs_upcalls (ls_global L) = upcalls70 -> gs_vars (ls_global L) = [] -> computed_apart L v e.
Proof.
  intros GU GP GV. assert (NU : forall k, ~ user_function L k).
  { intros k (md & E & U). unfold get_callable in E. rewrite GU, GP in E. apply names70 in E as [E _]. congruence. }
  split; [intros w p _; apply NU|]. left. unfold is_shared, contains_global. rewrite GV. reflexivity.
Qed.
Lemma fine69 : Forall (stmt_fine (k_syms (mc_compiler m69))) l69.
Proof.
  assert (E : l69 = ltac:(let x := eval vm_compute in l69 in exact x)) by (vm_compute; reflexivity). rewrite E. clear E.
  apply Forall_forall. intros st I e o O. split; [|intros; apply apart70; vm_compute; reflexivity]. cbn [In] in I.
  repeat (destruct I as [<-|I]; [occ; vm_compute; repeat split; try exact Logic.I; discriminate|]). destruct I.
Qed.

Local Notation returns_ powf := (returns powf alnum_ numeric_ upper_ (fun _ => []) host70 upcalls70 [] outside70).
Example C69_case : forall powf, overflows powf host70 m69 \/
  exists m2 s', returns_ powf m69 (Ended m2 (Ok (Some 3%Z))) /\ at_rest m2 (fun _ => None) s' /\
    vals s' (u "X") = Some (Scalar (CInt 4)) /\ world s' = ([OpPrint (u " 4")], [], false).
Proof.
  intros powf. destruct (execs69 powf) as (s' & X & VX & WX).
  destruct (C69_new upcalls70 100 10000 w70 new70 ltac:(vm_compute; reflexivity) ltac:(reflexivity)) as (SE & _ & AR).
  destruct (C69_input powf alnum_ numeric_ upper_ (fun _ => []) host70 upcalls70 [] outside70 new70 m69 [] (fun _ => None) (nothing w70) text69 tokens69 end69 l69
    (fun _ _ => False) calls70 0 0 s' (SigEnd 3) tables_ tokenised69 program69 SE AR ltac:(vm_compute; reflexivity) linked69 fine69) as (_ & [O|(m2 & R & _ & _ & A)]).
  - apply undisturbed70; [apply calm70; split; reflexivity| |]; apply not_in; vm_compute; repeat (apply Forall_cons; [discriminate|]); apply Forall_nil.
  - exact X.
  - left. exact O.
  - right. exists m2, s'. auto.
Qed.
(** And it does not run out of memory. *)
Example C69_machine_case : forall powf, exists m2, input powf text69 new70 m2 (Ok (Some 3%Z)) /\ machine_world m2 = ([OpPrint (u " 4")], [], false).
Proof. intros powf. eexists. split; [input_|vm_compute; reflexivity]. Qed.

(** * C70 *)

(** CLEAR ends the program, so that nothing is printed. *)
Definition text70 : ustr := u "x = 4: CLEAR: PRINT 1".
Definition m70 : machine := compiled text70 new70.
Example C70_clear_case : forall powf, exists m1, returns_ powf m70 (Ended m1 (Ok None)) /\ at_rest m1 (fun _ => None) (nothing w70).
Proof.
  intros powf. eexists.
  refine (let Q := C70_clear_ends powf alnum_ numeric_ upper_ (fun _ => []) host70 upcalls70 [] outside70 m70 _ _ _ _ _ _ _ _ ([], [MaClear], false) w70 _
    eq_refl eq_refl _ _ _ _ _ _ _ _ in conj (proj1 Q) (proj2 (proj2 Q))).
  - repeat (eapply calmly_step; [vm_compute; reflexivity|]). apply calmly_refl.
  - reflexivity.
  - vm_compute; reflexivity.
  - vm_compute; reflexivity.
  - reflexivity.
  - reflexivity.
  - reflexivity.
  - vm_compute; reflexivity.
Qed.

(** RUN of [END 3] does not end the session: it says what the program gave. *)
Definition m70r : machine := compiled (u "RUN: PRINT 1") new70.
Definition tokens70 : list tokspan := fst (tokens alnum_ numeric_ upper_ (u "END 3")).
Definition end70 : linecol := snd (tokens alnum_ numeric_ upper_ (u "END 3")).
Definition l70 : list stmt := fst (parse_stmts end70 tokens70).
Lemma tokenised70 : tokenised alnum_ numeric_ upper_ (u "END 3") (1, 1)%N tokens70 end70.
Proof.
  apply (C55_tokens _ _ _ tables_); [reflexivity|]. split; [vm_compute; reflexivity|].
  apply no_bad. vm_compute. repeat (apply Forall_cons; [exact Logic.I|]). apply Forall_nil.
Qed.
Lemma program70 : program end70 l70 tokens70.
Proof. apply C65_only_programs; [plain_|vm_compute; reflexivity]. Qed.
Lemma no_such (l : list ustr) t : existsb (ustr_eqb t) l = false -> ~ In t l.
Proof. intros E I. apply Bool.not_true_iff_false in E. apply E, existsb_exists. exists t. split; [exact I|]. apply ustr_eqb_eq. reflexivity. Qed.
Example C70_run_case : forall powf, exists m1, overflows powf host70 m1 \/
  exists m2, returns_ powf m70r (Ended m2 (Ok None)) /\ machine_world m2 = ([OpPrint (u "Program exited with code 3")], [], false).
Proof.
  intros powf. eexists.
  edestruct (C70_run powf alnum_ numeric_ upper_ (fun _ => []) host70 upcalls70 [] outside70 m70r) with (w := (([], [MaRun (u "END 3")], false) : world70)) (w2 := w70)
    (text := u "END 3") (tw := tokens70) (end_ := end70) (l := l70) (defined := fun (_ : ustr) (_ : definition) => False) (does := calls70) (n := 0) (d := 0)
    (s' := nothing w70) (g := SigEnd 3) as [O|F].
  1:{ reflexivity. }
  1:{ reflexivity. }
  1:{ repeat (eapply calmly_step; [vm_compute; reflexivity|]). apply calmly_refl. }
  1:{ reflexivity. }
  1:{ vm_compute; reflexivity. }
  1:{ vm_compute; reflexivity. }
  1:{ reflexivity. }
  1:{ reflexivity. }
  1:{ reflexivity. }
  1:{ exact tables_. }
  1:{ exact tokenised70. }
  1:{ exact program70. }
  1:{ vm_compute; reflexivity. }
  1:{ apply linked_nothing, hosted70; try (vm_compute; reflexivity). apply Forall_nil. }
  1:{ assert (E : l70 = ltac:(let x := eval vm_compute in l70 in exact x)) by (vm_compute; reflexivity). rewrite E. clear E.
      apply Forall_forall. intros st I e o O. split; [|intros; apply apart70; vm_compute; reflexivity]. cbn [In] in I.
      repeat (destruct I as [<-|I]; [occ; vm_compute; repeat split; try exact Logic.I; discriminate|]). destruct I. }
  1:{ apply undisturbed70; [apply calm70; split; reflexivity| |]; apply no_such; vm_compute; reflexivity. }
  1:{ unfold execs_in. assert (E : l70 = ltac:(let x := eval vm_compute in l70 in exact x)) by (vm_compute; reflexivity). rewrite E. clear E.
      straight_. eapply E_cons_leaves; [eapply (E_end_code _ _ _ _ _ _ _ _ _ _ 3); [ev|lia]|discriminate]. }
  { left. exact O. }
  { right. destruct (F ([OpPrint (u "Program exited with code 3")], [], false)) as (m2 & R & _ & _ & A); [vm_compute; reflexivity|].
    exists m2. split; [exact R|]. destruct A as (_ & _ & HD). exact (hd_world _ _ _ _ _ _ _ _ HD). }
Qed.

(** A program that does not end, and a signal. *)
Definition text70b : ustr := u "x = 1: WHILE x > 0: x = 2: WEND".
Definition m70s : machine :=
    match machine_new upcalls70 [] 100 10000 (([], [], true) : world70) with Some m => m | None => new70 end.
Definition m70b : machine := compiled text70b m70s.
Definition l70b : list stmt := let '(ts, e) := tokens alnum_ numeric_ upper_ text70b in fst (parse_stmts e ts).
Example C70_break_case : forall powf, exists m1, returns_ powf m70b (Ended m1 (Err MeBreak)) /\ machine_world m1 = w70.
Proof.
  intros powf.
  destruct (C69_new upcalls70 100 10000 (([], [], true) : world70) m70s ltac:(vm_compute; reflexivity) ltac:(reflexivity)) as (SE & _ & _).
  edestruct (C70_break powf alnum_ numeric_ upper_ (fun _ => []) host70 upcalls70 [] outside70 m70b) as (m1 & R & _ & _ & Q & _).
  - apply (session_input _ _ _ (l70b, None) _ _ Compiled _ _ SE). vm_compute. reflexivity.
  - reflexivity.
  - repeat (eapply calmly_step; [vm_compute; reflexivity|]). apply calmly_refl.
  - vm_compute; reflexivity.
  - reflexivity.
  - exists m1. split; [exact R|exact Q].
Qed.
