(** Statements: C20 to C23, and compiled images. *)
From Coq Require Import String.
From Verif Require Import Base Bytecode_Model Bytecode_Spec Bytecode_Proofs Mem_Model Mem_Spec Mem_Proofs Num_Model
  Vm_Model Vm_Spec Ids_Model Ids_Spec Ids_Proofs Ast_Model Syms_Model Codegen_Model Codegen_Proofs Exprs_Model
  Top_Model Incr_Spec Args_Spec Eval_Spec Eval_Proofs Eval_Props Call_Spec Host_Model Host_Case Exec_Spec Exec_Proofs
  Program_Proofs User_Spec User_Proofs.
Local Open Scope string_scope.
Local Open Scope list_scope.
Local Open Scope nat_scope.

(** * C01 *)

(** Everything the compiler puts into an image fits the encoding, so that the machine reads it
    back as it was meant. *)
Theorem C01_compiled_images_decode : forall upcalls defs srcs k img w,
  session upcalls defs srcs k img -> In w (ci_code img) ->
  exists i, in_range i /\ encode i = w /\ decode w = Some i.
Proof. intros * H W. destruct (session_decodes _ _ _ _ _ H w W) as (i & A & B & C). eauto. Qed.
Print Assumptions C01_compiled_images_decode.

(** * C20 *)

(** Missing from the full statement: what [computed_apart] excludes, where it is false, see
    [C20_calls_refuted].  [x] is the compiler before the assignment and [x'] after it, at any
    point of any input of a session, which may have gone on since, up to the image [img]; [s] are
    the variables and the world before it. *)
Theorem C20_assignment_partial : forall powf (W : Type) upcall defined host n hidden up defs k img x x' v p e c m (s s1 : env W) t d,
  compiled_in up defs k img x [StAssignment v p e] x' -> linked up defs upcall k img defined host ->
  within (fun _ _ => True) in_i32 e -> computed_apart (k_syms k) v e ->
  ready (runnable img) (k_syms k) hidden x c m s ->
  declared (k_syms k) (ascii_upper (vr_name v)) = Some t ->
  evals_as powf (get_callable (ls_global (k_syms k))) (is_variable (k_syms k)) (linked_calls powf k defined host n) s (Some t) e (Ok d) s1 ->
  exists c' m', runs powf upcall (runnable img) c m c' m' /\
    (gives_up powf upcall (runnable img) c' m' \/
     (same_frame c c' /\ texts_kept m m' /\ c_pc c' = s_pc x' /\
      holding (k_syms k) hidden (ci_constants img) (snd x') None (set_yield c' false) m'
        (mkEnv (fun key => if ustr_eqb (ascii_upper (vr_name v)) key then Some (Scalar d) else vals s1 key) (world s1)))).
Proof.
  intros * CI HO LI AP R T E.
  refine (linked_alone_runs up defs powf upcall k img defined host HO n 0 hidden _ x x' c m s (store s1 (ascii_upper (vr_name v)) (Scalar d)) SigNormal CI _ R _).
  - intros e' o O. inversion O; subst. split; [exact LI|]. intros v' Ev. injection Ev as <-. exact AP.
  - eapply E_assign; [reflexivity|exact T|exact E].
Qed.
Print Assumptions C20_assignment_partial.

(** An assignment whose expression fails raises the error of the expression. *)
Theorem C20_failing_assignment_partial : forall powf (W : Type) upcall defined host n hidden up defs k img x x' v p e c m (s s1 : env W) t err,
  compiled_in up defs k img x [StAssignment v p e] x' -> linked up defs upcall k img defined host ->
  within (fun _ _ => True) in_i32 e -> computed_apart (k_syms k) v e ->
  ready (runnable img) (k_syms k) hidden x c m s ->
  declared (k_syms k) (ascii_upper (vr_name v)) = Some t ->
  evals_as powf (get_callable (ls_global (k_syms k))) (is_variable (k_syms k)) (linked_calls powf k defined host n) s (Some t) e (Err err) s1 ->
  exists c' m', runs powf upcall (runnable img) c m c' m' /\
    (gives_up powf upcall (runnable img) c' m' \/ fails powf upcall (runnable img) c' m' err (world s1)).
Proof.
  intros * CI HO LI AP R T E.
  refine (linked_alone_runs up defs powf upcall k img defined host HO n 0 hidden _ x x' c m s s1 (SigError err) CI _ R _).
  - intros e' o O. inversion O; subst. split; [exact LI|]. intros v' Ev. injection Ev as <-. exact AP.
  - eapply E_assign_fails; [exact T|exact E].
Qed.
Print Assumptions C20_failing_assignment_partial.

(** An assignment computes its value in the variable itself when the expression does not name the
    variable, and a function that the expression calls sees the half-computed value.  Here
    [g = 1 + f] must leave 6 in [g]:
<<
DIM SHARED g AS INTEGER
FUNCTION f
  f = g
END FUNCTION
g = 5
g = 1 + f
END g
>> *)
Theorem C20_calls_refuted : exists p,
  p = [ StDim (u "g") at_ true TInteger;
        StCallable (mkVarRef (u "f") (Some TInteger)) at_ [] [set_ "f" (var_ "g")] at_;
        set_ "g" (int_ 5); set_ "g" (bin_ BAdd (int_ 1) (var_ "f")); end_ (var_ "g") ] /\
  program_exits p 2 /\ ~ program_exits p 6.
Proof.
  eexists. split; [reflexivity|].
  match goal with |- ?A /\ _ => assert (H : A) end.
  { eexists. split; [vm_compute; reflexivity|]. intros powf. exists 40. vm_compute. reflexivity. }
  split; [exact H|]. eapply exits_once; [exact H|discriminate].
Qed.
Print Assumptions C20_calls_refuted.

(** * C21 *)

(** Missing from the full statements of C21, C22 and C23: ON ERROR, and jumps from outside of a
    body to a label in it.  GOSUBs jump to labels of a block [l0] around the statement, which
    started with [s0]. *)
Theorem C21_if_partial : forall powf (W : Type) upcall defined host n hidden d l0 s0 up defs k img x x' bs c m (s s' : env W) g,
  around up defs k img hidden l0 s0 -> compiled_in up defs k img x [StIf bs] x' -> linked up defs upcall k img defined host -> stmt_fine (k_syms k) (StIf bs) ->
  ready (runnable img) (k_syms k) hidden x c m s ->
  exec_branches_in powf (k_syms k) (linked_calls powf k defined host n) (linked_subs powf k defined host n d s0 l0) s bs s' g ->
  outcome_of powf upcall (runnable img) (k_syms k) hidden x' c m s' g.
Proof. intros * AR CI HO FI R E. eapply linked_stmt_runs; try eassumption. constructor. exact E. Qed.
Print Assumptions C21_if_partial.

(** The first branch whose condition holds, in one rule; [ss n] is before the test of branch [n]. *)
Theorem C21_first_true_branch : forall powf (W : Type) callable variable shared ty calls subs bs n e body (ss : nat -> env W) s1 s' g,
  nth_error bs n = Some (e, body) ->
  (forall m e' body', m < n -> nth_error bs m = Some (e', body') ->
     tests powf callable variable calls (ss m) e' (Ok false) (ss (S m))) ->
  tests powf callable variable calls (ss n) e (Ok true) s1 ->
  execs powf callable variable shared ty calls subs s1 body s' g ->
  exec_branches powf callable variable shared ty calls subs (ss 0) bs s' g.
Proof.
  intros powf W callable variable shared ty calls subs bs.
  induction bs as [|[e0 b0] bs IH]; intros n e body ss s1 s' g N1 F T B; [destruct n; discriminate|].
  destruct n as [|n].
  - injection N1 as -> ->. eapply E_branch; eassumption.
  - eapply E_other_branch; [apply (F 0 e0 b0); [lia|reflexivity]|].
    apply (IH n e body (fun i => ss (S i)) s1); auto. intros m e' b' L N2. apply (F (S m) e' b'); [lia|exact N2].
Qed.
Print Assumptions C21_first_true_branch.

(** A variable that only a skipped branch assigns is not the empty text but the first constant of
    the program.  Here the program must exit with 0:
<<
IF FALSE THEN s$ = "boo"
IF s$ = "boo" THEN END 1
END 0
>> *)
Definition txt_ (s : string) : expr := EText (u s) at_.
Definition svar_ : expr := ESymbol (mkVarRef (u "s") (Some TText)) at_.
Theorem C21_skipped_branch_refuted : exists p,
  p = [ StIf [(EBoolean false at_, [StAssignment (mkVarRef (u "s") (Some TText)) at_ (txt_ "boo")])];
        StIf [(bin_ BEqual svar_ (txt_ "boo"), [end_ (int_ 1)])]; end_ (int_ 0) ] /\
  program_exits p 1 /\ ~ program_exits p 0.
Proof.
  eexists. split; [reflexivity|].
  match goal with |- ?A /\ _ => assert (H : A) end.
  { eexists. split; [vm_compute; reflexivity|]. intros powf. exists 40. vm_compute. reflexivity. }
  split; [exact H|]. eapply exits_once; [exact H|discriminate].
Qed.
Print Assumptions C21_skipped_branch_refuted.

(** * C22 *)

Definition is_loop (st : stmt) : Prop :=
  match st with StWhile _ _ | StDo _ _ | StFor _ _ _ _ _ _ _ => True | _ => False end.

(** [exec] is the structured reading of the loops. *)
Theorem C22_loops_partial : forall powf (W : Type) upcall defined host n hidden d l0 s0 up defs k img x x' st c m (s s' : env W) g,
  is_loop st -> around up defs k img hidden l0 s0 -> compiled_in up defs k img x [st] x' -> linked up defs upcall k img defined host -> stmt_fine (k_syms k) st ->
  ready (runnable img) (k_syms k) hidden x c m s ->
  exec_in powf (k_syms k) (linked_calls powf k defined host n) (linked_subs powf k defined host n d s0 l0) s st s' g ->
  outcome_of powf upcall (runnable img) (k_syms k) hidden x' c m s' g.
Proof. intros * _ AR CI HO FI R E. eapply linked_stmt_runs; eassumption. Qed.
Print Assumptions C22_loops_partial.

(** Any block of statements: each after the other, until one leaves the block. *)
Theorem C22_blocks_partial : forall powf (W : Type) upcall defined host n hidden d l0 s0 up defs k img x l x' c m (s s' : env W) g,
  around up defs k img hidden l0 s0 -> compiled_in up defs k img x l x' -> linked up defs upcall k img defined host -> Forall (stmt_fine (k_syms k)) l ->
  ready (runnable img) (k_syms k) hidden x c m s ->
  execs_in powf (k_syms k) (linked_calls powf k defined host n) (linked_subs powf k defined host n d s0 l0) s l s' g ->
  outcome_of powf upcall (runnable img) (k_syms k) hidden x' c m s' g.
Proof. intros * AR CI HO FI R E. eapply linked_block_runs; eassumption. Qed.
Print Assumptions C22_blocks_partial.

(** A whole program in a new machine: when its statements end normally, the machine gets to the
    end of the program, with what they leave in the variables and in the world. *)
Theorem C22_programs_partial : forall powf (W : Type) upcall defined host n d up k l k' img max size (w : W) s',
  (N.of_nat max < 2 ^ 24)%N ->
  compiler_new up [] = COk k -> compile_more k cimage_default (l, None) = (Compiled, k', img) ->
  linked up [] upcall k' img defined host -> Forall (stmt_fine (k_syms k')) l ->
  execs_in powf (k_syms k') (linked_calls powf k' defined host n)
    (linked_subs powf k' defined host n d (mkEnv (fun _ => None) w) l) (mkEnv (fun _ => None) w) l s' SigNormal ->
  exists c m, runs powf upcall (runnable img) (ctx_new max) (mkMem (heap_new size) w) c m /\
    (gives_up powf upcall (runnable img) c m \/
     (step powf (runnable img) c m = RStop SEof c m /\
      holding (k_syms k') (fun _ => None) (ci_constants img) (k_syms k') None (set_yield c false) m s')).
Proof.
  intros * SM NK C HO FI E.
  destruct (linked_input_runs up [] powf upcall defined host n d (fun _ => None) [] k cimage_default k' img l (ctx_new max) (mkMem (heap_new size) w) (mkEnv (fun _ => None) w) s'
    (session_start _ _ _ NK) C HO FI) with (2 := E) as (c & m & A & B); [|exists c, m; intuition].
  split; [apply (new_starts _ _ NK)|]. apply new_holds, SM.
Qed.
Print Assumptions C22_programs_partial.

(** * C23 *)

Theorem C23_select_partial : forall powf (W : Type) upcall defined host n hidden depth l0 s0 up defs k img x x' e cs p c m (s s1 : env W) d s' g,
  around up defs k img hidden l0 s0 -> compiled_in up defs k img x [StSelect e cs p] x' -> linked up defs upcall k img defined host ->
  stmt_fine (k_syms k) (StSelect e cs p) -> ready (runnable img) (k_syms k) hidden x c m s ->
  evals powf (get_callable (ls_global (k_syms k))) (is_variable (k_syms k)) (linked_calls powf k defined host n) s e (Ok d) s1 ->
  exec_cases_in powf (k_syms k) (linked_calls powf k defined host n) (linked_subs powf k defined host n depth s0 l0) s1 d cs s' g ->
  outcome_of powf upcall (runnable img) (k_syms k) hidden x' c m s' g.
Proof. intros * AR CI HO FI R V E. eapply linked_stmt_runs; try eassumption. eapply E_select; eassumption. Qed.
Print Assumptions C23_select_partial.

(** The first case that admits the value, in one rule; [ss n] is before the guards of case [n]. *)
Theorem C23_first_matching_case : forall powf (W : Type) callable variable shared ty calls subs cs n gs body d (ss : nat -> env W) s1 s' g,
  nth_error cs n = Some (gs, body) ->
  (forall m gs' body', m < n -> nth_error cs m = Some (gs', body') ->
     gs' <> [] /\ admitted powf callable variable calls d (ss m) gs' (Ok false) (ss (S m))) ->
  (gs = [] /\ s1 = ss n \/ admitted powf callable variable calls d (ss n) gs (Ok true) s1) ->
  execs powf callable variable shared ty calls subs s1 body s' g ->
  exec_cases powf callable variable shared ty calls subs (ss 0) d cs s' g.
Proof.
  intros powf W callable variable shared ty calls subs cs.
  induction cs as [|[g0 b0] cs IH]; intros n gs body d ss s1 s' g N1 F T B; [destruct n; discriminate|].
  destruct n as [|n].
  - injection N1 as -> ->. destruct T as [[-> ->]|T]; [apply E_case_else; exact B|eapply E_case; eassumption].
  - destruct (F 0 g0 b0 ltac:(lia) eq_refl) as [NE A]. eapply E_other_case; [exact NE|exact A|].
    apply (IH n gs body d (fun i => ss (S i)) s1); auto. intros m gs' b' L N2. apply (F (S m) gs' b'); [lia|exact N2].
Qed.
Print Assumptions C23_first_matching_case.

(** Guards of a case: the first that admits the value decides. *)
Theorem C23_first_matching_guard : forall powf (W : Type) callable variable calls gs n q d (ss : nat -> env W) s1,
  nth_error gs n = Some q ->
  (forall m q', m < n -> nth_error gs m = Some q' -> admits powf callable variable calls (ss m) d q' (Ok false) (ss (S m))) ->
  admits powf callable variable calls (ss n) d q (Ok true) s1 ->
  admitted powf callable variable calls d (ss 0) gs (Ok true) s1.
Proof.
  intros powf W callable variable calls gs. induction gs as [|q0 gs IH]; intros n q d ss s1 N1 F T; [destruct n; discriminate|].
  destruct n as [|n].
  - injection N1 as ->. apply A_this, T.
  - eapply A_later; [apply (F 0 q0 ltac:(lia) eq_refl)|].
    apply (IH n q d (fun i => ss (S i)) s1); auto. intros m q' L N2. apply (F (S m) q'); [lia|exact N2].
Qed.
Print Assumptions C23_first_matching_guard.

(** * A case for C20 to C23 *)

(** With the commands and functions of [demo_host]:
<<
t = 0
DIM a(3) AS INTEGER
FOR i = 1 TO 4
  IF i = 3 THEN
    EXIT FOR
  ELSE
    SELECT CASE i
      CASE IS < 2: a(i) = HALF(10 * i): OUT a(i)
      CASE ELSE: t = t + i + LAST
    END SELECT
  END IF
NEXT
OUT t
END a(1)
>> *)
Definition call_ (s : string) (e : expr) : expr := ECall (v_ s) at_ [(Some e, SepEnd, at_)].
Definition p22 : list stmt :=
  [ set_ "t" (int_ 0);
    StDimArray (u "a") at_ false [int_ 3] TInteger;
    StFor (v_ "i") at_ false (int_ 1) (bin_ BLessEqual (var_ "i") (int_ 4)) (bin_ BAdd (var_ "i") (int_ 1))
      [ StIf [ (bin_ BEqual (var_ "i") (int_ 3), [StExitFor at_]);
               (EBoolean true at_,
                 [ StSelect (var_ "i")
                     [ ([CIs RLess (int_ 2)],
                        [StArrayAssignment (v_ "a") at_ [var_ "i"] (call_ "half" (bin_ BMultiply (int_ 10) (var_ "i")));
                         StCall (v_ "out") at_ [(Some (call_ "a" (var_ "i")), SepEnd, at_)]]);
                       ([], [set_ "t" (bin_ BAdd (bin_ BAdd (var_ "t") (var_ "i")) (var_ "last"))]) ] at_ ]) ] ];
    StCall (v_ "out") at_ [(Some (var_ "t"), SepEnd, at_)];
    end_ (call_ "a" (int_ 1)) ].
Definition k22 : compiler := match compiler_new demo_upcalls [] with COk k => k | _ => mkCompiler tctx_new (enter_scope (gs_new [])) end.
Definition x22 : sst := (set_gen (pop_eof (t_gen (k_ctx k22))) (k_ctx k22), k_syms k22).
Definition y22 : sst := match compile_stmts p22 x22 with COk x => x | _ => x22 end.
Definition k22' : compiler := snd (fst (compile_more k22 cimage_default (p22, None))).
Definition img22 : cimage := snd (compile_more k22 cimage_default (p22, None)).

Lemma demo_names k md : assoc demo_upcalls k = Some md -> md_user md = false /\ (k = u "OUT" \/ k = u "HALF" \/ k = u "LAST").
Proof.
  unfold demo_upcalls. cbn [assoc fst snd].
  repeat match goal with |- context [ustr_eqb ?a k] => destruct (ustr_eqb a k) eqn:?; [|] end;
    repeat match goal with E : ustr_eqb _ _ = true |- _ => apply ustr_eqb_eq in E; subst k end;
    intros E; try discriminate E; injection E as <-; auto.
Qed.
Example demo_hosted : hosted (demo_host (ci_upcalls img22)) k22' img22 demo_calls.
Proof.
  assert (GU : gs_user (ls_global (k_syms k22')) = []) by (vm_compute; reflexivity).
  assert (GP : gs_upcalls (ls_global (k_syms k22')) = demo_upcalls) by (vm_compute; reflexivity).
  assert (GV : gs_vars (ls_global (k_syms k22')) = []) by (vm_compute; reflexivity).
  split.
  - intros k. right. rewrite GV. reflexivity.
  - split.
    + intros k md. rewrite GU. discriminate.
    + intros k md. rewrite GP. apply demo_names.
    + intros k md _. rewrite GV. reflexivity.
    + intros k md t n i. unfold get_callable. rewrite GU, GP. intros E.
      destruct (demo_names _ _ E) as [_ [->|[->| ->]]]; intros A; vm_compute in A; discriminate A.
  - rewrite GP. apply demo_obeys.
  - intros k gs s r s'. rewrite GP. intros []; vm_compute; discriminate.
Qed.

Lemma demo_apart v e : computed_apart (k_syms k22') v e.
Proof.
  assert (NU : forall k, ~ user_function (k_syms k22') k).
  { intros k (md & E & U). unfold get_callable in E.
    assert (GU : gs_user (ls_global (k_syms k22')) = []) by (vm_compute; reflexivity).
    assert (GP : gs_upcalls (ls_global (k_syms k22')) = demo_upcalls) by (vm_compute; reflexivity).
    rewrite GU, GP in E. apply demo_names in E as [E _]. congruence. }
  split; [intros w p _; apply NU|]. left. unfold is_shared, contains_global.
  assert (GV : gs_vars (ls_global (k_syms k22')) = []) by (vm_compute; reflexivity). rewrite GV. reflexivity.
Qed.

Ltac occ :=
  repeat match goal with
  | H : _ \/ _ |- _ => destruct H
  | H : False |- _ => destruct H
  | H : (_, _) = (_, _) |- _ => apply pair_inj in H as [? ?]
  | H : Some _ = Some _ |- _ => injection H as H
  | H : ?x = _ |- _ => is_var x; subst x
  | H : _ = ?x |- _ => is_var x; subst x
  | H : CIs _ _ = CIs _ _ |- _ => inversion H; clear H
  | H : CIs _ _ = CTo _ _ |- _ => discriminate H
  | H : In _ _ |- _ => progress cbn [In] in H
  | O : occurs _ _ ?st |- _ => let st := eval hnf in st in inversion O; clear O
  end.
(** A block without jumps to its labels. *)
Ltac straight_ := eapply E_block; [|apply E_no_jump; intros; discriminate].
(** Evaluating by the rules. *)
Ltac choose_ := exists [], []; split; [reflexivity|]; split; [reflexivity|intros ? []].
Ltac ev :=
  lazymatch goal with
  | |- evals _ _ _ _ _ ?e _ _ =>
      let e' := eval hnf in e in change e with e';
      lazymatch e' with
      | EInteger _ _ => apply V_integer
      | EBoolean _ _ => apply V_boolean
      | ESymbol ?v _ =>
          first [ apply V_variable; vm_compute; reflexivity
                | eapply V_function; [reflexivity|vm_compute; reflexivity|eapply (demo_last _ [] 5%Z); [vm_compute; reflexivity|split; vm_compute; discriminate]] ]
      | EBinary _ _ _ _ => eapply V_binary; [ev|ev|vm_compute; reflexivity]
      | ECall _ _ _ =>
          first [ eapply V_call; [reflexivity|vm_compute; reflexivity|choose_|eapply D_more; [apply G_plain; ev|apply D_none]
                                 |apply demo_half; vm_compute; reflexivity]
                | eapply V_element with (zs := [1%Z]);
                    [reflexivity|vm_compute; reflexivity|eapply (D_more _ _ _ _ _ _ _ _ [GValue (CInt 1)] _ []); [apply G_plain; ev|apply D_none]|vm_compute; reflexivity
                    |constructor; [vm_compute; split; [discriminate|reflexivity]|constructor]] ]
      end
  | |- evals_as _ _ _ _ _ _ _ _ _ => eapply A_value; [ev|vm_compute; reflexivity]
  | |- tests _ _ _ _ _ _ _ _ => apply T_value; ev
  end.

Lemma compiled22 : compiled_in demo_upcalls [] k22' img22 x22 p22 y22.
Proof.
  eapply (compiled_now demo_upcalls [] [] k22 cimage_default [] p22 []); [apply session_start; reflexivity| |reflexivity|];
    vm_compute; reflexivity.
Qed.
Lemma fine22 : Forall (stmt_fine (k_syms k22')) p22.
Proof.
  apply Forall_forall. intros st I e o O. split; [|intros; apply demo_apart]. cbn [p22 In] in I.
  repeat (destruct I as [<-|I]; [occ; vm_compute; repeat split; try exact Logic.I; discriminate|]). destruct I.
Qed.
Example C22_case : forall powf, exists s', world s' = [5; 7]%Z /\
  outcome_of powf (demo_host (ci_upcalls img22)) (runnable img22) (k_syms k22') (fun _ => None) y22 (ctx_new 100) (mkMem (heap_new 10000) []) s' (SigEnd 5).
Proof.
  intros powf. eexists. split; [|eapply C22_blocks_partial with (n := 0) (d := 0) (l0 := p22) (s0 := mkEnv (fun _ => None) []) (defined := fun _ _ => False) (host := demo_calls) (l := p22) (x := x22) (s := mkEnv (fun _ => None) [])].
  2:{ exists x22, y22, (ctx_new 100), (mkMem (heap_new 10000) []). split; [exact compiled22|]. split; [exact fine22|]. split; [reflexivity|]. apply new_holds. reflexivity. }
  2:{ exact compiled22. }
  2:{ apply linked_nothing, demo_hosted. }
  2:{ exact fine22. }
  2:{ split; [reflexivity|]. apply new_holds. reflexivity. }
  2:{ straight_. eapply E_cons; [eapply E_assign; [reflexivity|vm_compute; reflexivity|ev]|].
      eapply E_cons; [eapply E_dim_array with (zs := [3%Z]); [eapply (D_more _ _ _ _ _ _ _ _ [GValue (CInt 3)] _ []); [apply G_plain; ev|apply D_none]|repeat constructor|vm_compute; reflexivity]|].
      eapply E_cons; [eapply E_for; [reflexivity|vm_compute; reflexivity|ev|]|].
      - eapply E_rounds_again; [ev| | |].
        { straight_. eapply E_cons; [|apply E_nil]. apply E_if. eapply E_other_branch; [ev|]. eapply E_branch; [ev|].
          straight_. eapply E_cons; [|apply E_nil]. eapply E_select; [ev|]. eapply E_case; [apply A_this, A_is; eapply C_value; [ev|vm_compute; reflexivity]|].
          straight_. eapply E_cons; [eapply E_element with (zs := [1%Z]); [reflexivity|vm_compute; reflexivity|ev
            |eapply (D_more _ _ _ _ _ _ _ _ [GValue (CInt 1)] _ []); [apply G_plain; ev|apply D_none]|vm_compute; reflexivity
            |constructor; [vm_compute; split; [discriminate|reflexivity]|constructor]]|].
          eapply E_cons; [eapply E_call; [reflexivity|vm_compute; reflexivity|choose_|eapply D_more; [apply G_plain; ev|apply D_none]|apply demo_out]|apply E_nil]. }
        { ev. }
        eapply E_rounds_again; [ev| | |].
        { straight_. eapply E_cons; [|apply E_nil]. apply E_if. eapply E_other_branch; [ev|]. eapply E_branch; [ev|].
          straight_. eapply E_cons; [|apply E_nil]. eapply E_select; [ev|].
          eapply E_other_case; [discriminate|eapply A_later; [apply A_is; eapply C_value; [ev|vm_compute; reflexivity]|apply A_none]|]. apply E_case_else.
          straight_. eapply E_cons; [eapply E_assign; [reflexivity|vm_compute; reflexivity|ev]|apply E_nil]. }
        { ev. }
        eapply E_rounds_exits; [ev|].
        straight_. eapply E_cons_leaves; [|discriminate]. apply E_if. eapply E_branch; [ev|].
        straight_. eapply E_cons_leaves; [apply E_exit_for|discriminate].
      - eapply E_cons; [eapply E_call; [reflexivity|vm_compute; reflexivity|choose_|eapply D_more; [apply G_plain; ev|apply D_none]|apply demo_out]|].
        eapply E_cons_leaves; [|discriminate]. eapply (E_end_code _ _ _ _ _ _ _ _ _ _ 5); [ev|lia]. }
  vm_compute. reflexivity.
Qed.
(** * C54 *)

(** Running the program gets to an instruction at which the host panics. *)
Definition program_panics (p : list stmt) : Prop :=
  exists img, compile_new [] [] (p, None) = (Compiled, img) /\
    forall powf upcall, exists c m, runs powf upcall (runnable img) (ctx_new 100) (mkMem (heap_new 10000) tt) c m /\
      step powf (runnable img) c m = RPanic.

(** [IF FALSE THEN s$ = "boo"] in the second line leaves [s$] to stand for the first constant,
    and [s$ + "x"] takes the double for a text:
<<
d = 1.5
IF FALSE THEN s$ = "boo"
t$ = s$ + "x"
>> *)
Theorem C54_running_refuted : exists p,
  p = [ set_ "d" (EDouble 4609434218613702656 at_);
        StIf [(EBoolean false at_, [StAssignment (mkVarRef (u "s") (Some TText)) at_ (txt_ "boo")])];
        StAssignment (mkVarRef (u "t") (Some TText)) at_ (bin_ BAdd svar_ (txt_ "x")) ] /\
  program_panics p.
Proof.
  eexists. split; [reflexivity|]. eexists. split; [vm_compute; reflexivity|]. intros powf upcall.
  do 2 eexists. split.
  - do 5 (eapply runs_step; [vm_compute; reflexivity|]). apply runs_refl.
  - vm_compute. reflexivity.
Qed.
Print Assumptions C54_running_refuted.

(** The compiler panics on: a call of a function that is declared but not defined; a function
    with two parameters of the same name; an array subscript left out, [DIM a(3): b = a(, 1)]. *)
Theorem C54_compiling_refuted : exists p1 p2 p3,
  p1 = [StDeclare (mkVarRef (u "f") (Some TInteger)) at_ []; set_ "a" (var_ "f")] /\
  p2 = [StCallable (mkVarRef (u "f") (Some TInteger)) at_ [v_ "a"; v_ "a"] [] at_] /\
  p3 = [StDimArray (u "a") at_ false [int_ 3; int_ 3] TInteger;
        set_ "b" (ECall (v_ "a") at_ [(None, SepLong, at_); (Some (int_ 1), SepEnd, at_)])] /\
  Forall (fun p => fst (compile_new [] [] (p, None)) = Crashed) [p1; p2; p3].
Proof.
  do 3 eexists. do 3 (split; [reflexivity|]).
  repeat apply Forall_cons; try apply Forall_nil; vm_compute; reflexivity.
Qed.
Print Assumptions C54_compiling_refuted.
