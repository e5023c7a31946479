(** Calls of functions and subroutines of the program: C64. *)
From Coq Require Import String.
From Verif Require Import Base Bytecode_Model Bytecode_Spec Mem_Model Mem_Spec Num_Model
  Vm_Model Vm_Spec Ids_Model Ids_Spec Ids_Proofs Ast_Model Syms_Model Codegen_Model Codegen_Proofs Exprs_Model
  Top_Model Incr_Spec Args_Spec Eval_Spec Eval_Proofs Eval_Props Call_Spec Host_Model Host_Case Exec_Spec Exec_Proofs
  Program_Proofs User_Spec User_Proofs Exec_Props.
Local Open Scope string_scope.
Local Open Scope list_scope.
Local Open Scope nat_scope.

(** A subroutine [d] is called with the expressions [es]: its body runs with their values, as the
    types of the parameters, and with the shared variables; afterwards the caller has its own
    variables, and the shared ones as the body left them.  Calls may be nested in the body and in
    the arguments, as deep as one likes, and so may recursive ones. *)
Theorem C64_subroutine : forall powf (W : Type) upcall defined host n depth hidden up defs k img x x' v p args es d ds c m (s s1 s2 : env W) g,
  compiled_in up defs k img x [StCall v p args] x' -> linked up defs upcall k img defined host ->
  stmt_fine (k_syms k) (StCall v p args) -> ready (runnable img) (k_syms k) hidden x c m s ->
  defined (ascii_upper (vr_name v)) d -> vr_type (df_name d) = None -> map (fun a => fst (fst a)) args = map Some es ->
  values powf (get_callable (ls_global (k_syms k))) (is_variable (k_syms k)) (linked_calls powf k defined host (S n)) s
    (map param_type (df_params d)) es ds s1 ->
  body_runs powf (is_shared (k_syms k)) (linked_calls powf k defined host n) depth d ds s1 s2 g ->
  over g -> outcome_of powf upcall (runnable img) (k_syms k) hidden x' c m (returned (is_shared (k_syms k)) s1 s2) SigNormal.
Proof.
  intros * CI LN FI R DF RT EA V B O. destruct (own_arguments _ _ _ _ _ _ _ _ LN true _ _ _ _ _ _ _ _ DF EA V) as (md & syn & A1 & A2 & A3 & A4).
  eapply linked_alone_runs with (d := 0); try eassumption. eapply E_call; [reflexivity|exact A1|exact A2|exact A3|].
  rewrite told_values. right. eapply U_sub; eassumption.
Qed.
Print Assumptions C64_subroutine.

(** A function, the value of which is assigned to a variable. *)
Theorem C64_function : forall powf (W : Type) upcall defined host n depth hidden up defs k img x x' w p v q args es d ds t t' r r' c m (s s1 s2 : env W) g,
  compiled_in up defs k img x [StAssignment w p (ECall v q args)] x' -> linked up defs upcall k img defined host ->
  stmt_fine (k_syms k) (StAssignment w p (ECall v q args)) -> ready (runnable img) (k_syms k) hidden x c m s ->
  defined (ascii_upper (vr_name v)) d -> vr_type (df_name d) = Some t -> map (fun a => fst (fst a)) args = map Some es ->
  values powf (get_callable (ls_global (k_syms k))) (is_variable (k_syms k)) (linked_calls powf k defined host (S n)) s
    (map param_type (df_params d)) es ds s1 ->
  body_runs powf (is_shared (k_syms k)) (linked_calls powf k defined host n) depth d ds s1 s2 g ->
  over g -> vals s2 (ascii_upper (vr_name v)) = Some (Scalar r) ->
  declared (k_syms k) (ascii_upper (vr_name w)) = Some t' -> convert t' r = Some (Ok r') ->
  outcome_of powf upcall (runnable img) (k_syms k) hidden x' c m
    (store (returned (is_shared (k_syms k)) s1 s2) (ascii_upper (vr_name w)) (Scalar r')) SigNormal.
Proof.
  intros * CI LN FI R DF RT EA V B O RV T CV. destruct (own_arguments _ _ _ _ _ _ _ _ LN false _ _ _ _ _ _ _ _ DF EA V) as (md & syn & A1 & A2 & A3 & A4).
  eapply linked_alone_runs with (n := S n) (d := 0); try eassumption. eapply E_assign; [reflexivity|exact T|]. eapply A_value; [|exact CV].
  eapply V_call; [reflexivity|exact A1|exact A2|exact A3|]. right. eapply U_function; eassumption.
Qed.
Print Assumptions C64_function.

(** An error in the body is an error of the call. *)
Theorem C64_failing_subroutine : forall powf (W : Type) upcall defined host n depth hidden up defs k img x x' v p args es d ds c m (s s1 s2 : env W) e,
  compiled_in up defs k img x [StCall v p args] x' -> linked up defs upcall k img defined host ->
  stmt_fine (k_syms k) (StCall v p args) -> ready (runnable img) (k_syms k) hidden x c m s ->
  defined (ascii_upper (vr_name v)) d -> map (fun a => fst (fst a)) args = map Some es ->
  values powf (get_callable (ls_global (k_syms k))) (is_variable (k_syms k)) (linked_calls powf k defined host (S n)) s
    (map param_type (df_params d)) es ds s1 ->
  body_runs powf (is_shared (k_syms k)) (linked_calls powf k defined host n) depth d ds s1 s2 (SigError e) ->
  exists c' m', runs powf upcall (runnable img) c m c' m' /\
    (gives_up powf upcall (runnable img) c' m' \/ fails powf upcall (runnable img) c' m' e (world s2)).
Proof.
  intros * CI LN FI R DF EA V B. destruct (own_arguments _ _ _ _ _ _ _ _ LN true _ _ _ _ _ _ _ _ DF EA V) as (md & syn & A1 & A2 & A3 & A4).
  change (outcome_of powf upcall (runnable img) (k_syms k) hidden x' c m (returned (is_shared (k_syms k)) s1 s2) (SigError e)).
  eapply linked_alone_runs with (n := S n) (d := 0); try eassumption. eapply E_call_fails; [reflexivity|exact A1|exact A2|exact A3|].
  rewrite told_values. right. eapply U_fails; eassumption.
Qed.
Print Assumptions C64_failing_subroutine.

(** * A case *)

(** With the commands of [demo_host]:
<<
DIM SHARED total AS INTEGER
FUNCTION fact%(n)
  total = total + 1
  IF n < 2 THEN fact = 1 ELSE fact = n * fact(n - 1)
END FUNCTION
SUB show(n)
  OUT n + total
END SUB
n = 3
show fact(n)
END n
>> *)
Definition fact_body : list stmt :=
  [ set_ "total" (bin_ BAdd (var_ "total") (int_ 1));
    StIf [ (bin_ BLess (var_ "n") (int_ 2), [set_ "fact" (int_ 1)]);
           (EBoolean true at_, [set_ "fact" (bin_ BMultiply (var_ "n") (call_ "fact" (bin_ BSubtract (var_ "n") (int_ 1))))]) ] ].
Definition show_body : list stmt := [StCall (v_ "out") at_ [(Some (bin_ BAdd (var_ "n") (var_ "total")), SepEnd, at_)]].
Definition fact_ : stmt := StCallable (mkVarRef (u "fact") (Some TInteger)) at_ [v_ "n"] fact_body at_.
Definition show_ : stmt := StCallable (v_ "show") at_ [v_ "n"] show_body at_.
Definition before64 : list stmt := [StDim (u "total") at_ true TInteger].
Definition after64 : list stmt :=
  [ set_ "n" (int_ 3); StCall (v_ "show") at_ [(Some (call_ "fact" (var_ "n")), SepEnd, at_)]; end_ (var_ "n") ].
Definition p64 : list stmt := before64 ++ [fact_] ++ [show_] ++ after64.
Definition k64 : compiler := snd (fst (compile_more k22 cimage_default (p64, None))).
Definition img64 : cimage := snd (compile_more k22 cimage_default (p64, None)).
Definition after_ (l : list stmt) (x : sst) : sst := match compile_stmts l x with COk x' => x' | _ => x end.
Definition begun (st : stmt) (x : sst) : sst :=
  match st with
  | StCallable name pos params _ _ => match body_start name pos params x with COk x' => x' | _ => x end
  | _ => x
  end.
Definition y64 : sst := after_ p64 x22.
Definition def_ (st : stmt) (x : sst) : definition :=
  match st with
  | StCallable name _ params body _ =>
      mkDef name params body (mkLsyms (ls_global (k_syms k64)) (ls_locals (snd (after_ body (begun st x)))) 0 0)
  | _ => mkDef (v_ "") [] [] (k_syms k64)
  end.
Definition fact_def : definition := def_ fact_ (after_ before64 x22).
Definition show_def : definition := def_ show_ (after_ (before64 ++ [fact_]) x22).
Definition defined64 (k : ustr) (d : definition) : Prop :=
  k = u "FACT" /\ d = fact_def \/ k = u "SHOW" /\ d = show_def.

Lemma user64 k md : assoc (gs_user (ls_global (k_syms k64))) k = Some md ->
  md_user md = true /\ (k = u "FACT" \/ k = u "SHOW").
Proof.
  vm_compute (gs_user _). cbn [assoc fst snd].
  repeat match goal with |- context [ustr_eqb ?a k] => destruct (ustr_eqb a k) eqn:?; [|] end;
    repeat match goal with E : ustr_eqb _ _ = true |- _ => apply ustr_eqb_eq in E; subst k end;
    intros E; try discriminate E; injection E as <-; auto.
Qed.
Lemma upcalls64 : gs_upcalls (ls_global (k_syms k64)) = demo_upcalls.
Proof. vm_compute. reflexivity. Qed.
Lemma callables64 k md : get_callable (ls_global (k_syms k64)) k = Some md ->
  In k [u "FACT"; u "SHOW"; u "OUT"; u "HALF"; u "LAST"].
Proof.
  unfold get_callable. destruct (assoc (gs_user _) k) as [md'|] eqn:E.
  - intros _. apply user64 in E as [_ [->| ->]]; cbn; auto.
  - rewrite upcalls64. intros D. apply demo_names in D as [_ D]. cbn. intuition.
Qed.
Lemma apart64 L : ls_global L = ls_global (k_syms k64) ->
  forallb (fun k => match id_get ustr_eqb (ls_locals L) k with Some (PArray _ _, _) => false | _ => true end)
    [u "FACT"; u "SHOW"; u "OUT"; u "HALF"; u "LAST"] = true ->
  names_apart L.
Proof.
  intros GL F. split; rewrite GL.
  - intros k md E. apply user64 in E as [U K]. split; [exact U|]. rewrite upcalls64. destruct K as [->| ->]; vm_compute; reflexivity.
  - intros k md. rewrite upcalls64. apply demo_names.
  - intros k md E. apply callables64 in E. cbn [In] in E. intuition; subst k; vm_compute; reflexivity.
  - intros k md t n i E A. apply callables64 in E. rewrite forallb_forall in F. specialize (F _ E). rewrite A in F. discriminate F.
Qed.
Lemma shadow64 L : ls_global L = ls_global (k_syms k64) -> id_get ustr_eqb (ls_locals L) (u "TOTAL") = None -> no_shadowing L.
Proof.
  intros GL T k. rewrite GL. assert (GV : exists x, gs_vars (ls_global (k_syms k64)) = [(u "TOTAL", x)]) by (eexists; vm_compute; reflexivity).
  destruct GV as [x ->]. cbn [id_get assoc fst snd]. destruct (ustr_eqb (u "TOTAL") k) eqn:E; [|right; reflexivity].
  apply ustr_eqb_eq in E. subst k. left. exact T.
Qed.
Lemma fine64 L l : ls_global L = ls_global (k_syms k64) ->
  (forall st e o, In st l -> occurs e o st -> within (fun _ _ => True) in_i32 e /\
     forall v, o = Some v -> (forall w p, leftmost e = ESymbol w p -> ~ In (ascii_upper (vr_name w)) [u "FACT"; u "SHOW"]) /\
       (ascii_upper (vr_name v) <> u "TOTAL" \/ e = bin_ BAdd (var_ "total") (int_ 1))) ->
  Forall (stmt_fine L) l.
Proof.
  intros GL H. apply Forall_forall. intros st IN e o O. destruct (H _ _ _ IN O) as [A B]. split; [exact A|]. intros v Ev.
  destruct (B v Ev) as [B1 B2]. split.
  - intros w p LM (md & C & U). apply (B1 w p LM). rewrite GL in C. unfold get_callable in C.
    destruct (assoc (gs_user _) _) as [md'|] eqn:E.
    + apply user64 in E as [_ [-> | ->]]; cbn; auto.
    + rewrite upcalls64 in C. apply demo_names in C. destruct C. congruence.
  - destruct B2 as [B2| ->].
    + left. unfold is_shared, contains_global. rewrite GL.
      assert (GV : exists x, gs_vars (ls_global (k_syms k64)) = [(u "TOTAL", x)]) by (eexists; vm_compute; reflexivity).
      destruct GV as [x ->]. unfold id_get. destruct (ustr_eqb (u "TOTAL") (ascii_upper (vr_name v))) eqn:E; [|reflexivity].
      apply ustr_eqb_eq in E. congruence.
    + destruct (ustr_eqb (u "TOTAL") (ascii_upper (vr_name v))) eqn:E.
      * right. left. apply ustr_eqb_eq in E. rewrite <- E. intros [X _]. exact (X eq_refl eq_refl).
      * left. unfold is_shared, contains_global. rewrite GL.
        assert (GV : exists x, gs_vars (ls_global (k_syms k64)) = [(u "TOTAL", x)]) by (eexists; vm_compute; reflexivity).
        destruct GV as [x ->]. unfold id_get. rewrite E. reflexivity.
Qed.
Ltac fine64 :=
  apply fine64; [vm_compute; reflexivity|]; intros st e o IN O;
  cbn [In p64 before64 after64 app fact_ show_ fact_body show_body df_body def_ fact_def show_def] in IN;
  repeat (destruct IN as [<-|IN]; [occ; (split; [vm_compute; repeat split; try exact Logic.I; discriminate|]);
     intros v Ev; try discriminate Ev; injection Ev as <-; (split; [intros w p LM; try discriminate LM; injection LM as <- <-; vm_compute; intuition discriminate|]);
     first [left; vm_compute; discriminate|right; reflexivity]|]); destruct IN.

Example linked64 : linked demo_upcalls [] (demo_host (ci_upcalls img64)) k64 img64 defined64 demo_calls.
Proof.
  split.
  - split.
    + apply shadow64; vm_compute; reflexivity.
    + apply apart64; vm_compute; reflexivity.
    + rewrite upcalls64. apply demo_obeys.
    + intros k gs s r s'. rewrite upcalls64. intros []; vm_compute; discriminate.
  - intros key d [[-> ->]|[-> ->]].
    + apply (defined_at demo_upcalls [] k64 img64 (after_ before64 x22) (after_ [fact_] (after_ before64 x22)) (mkVarRef (u "fact") (Some TInteger)) at_ [v_ "n"] fact_body at_
        (begun fact_ (after_ before64 x22)) (after_ fact_body (begun fact_ (after_ before64 x22)))); [|vm_compute; reflexivity|vm_compute; reflexivity].
      eapply (compiled_now demo_upcalls [] [] k22 cimage_default before64 [fact_] ([show_] ++ after64));
        [apply session_start; vm_compute; reflexivity|vm_compute; reflexivity|vm_compute; reflexivity|vm_compute; reflexivity].
    + apply (defined_at demo_upcalls [] k64 img64 (after_ (before64 ++ [fact_]) x22) (after_ [show_] (after_ (before64 ++ [fact_]) x22)) (v_ "show") at_ [v_ "n"] show_body at_
        (begun show_ (after_ (before64 ++ [fact_]) x22)) (after_ show_body (begun show_ (after_ (before64 ++ [fact_]) x22)))); [|vm_compute; reflexivity|vm_compute; reflexivity].
      eapply (compiled_now demo_upcalls [] [] k22 cimage_default (before64 ++ [fact_]) [show_] after64);
        [apply session_start; vm_compute; reflexivity|vm_compute; reflexivity|vm_compute; reflexivity|vm_compute; reflexivity].
  - intros key d [[-> ->]|[-> ->]]; apply shadow64; vm_compute; reflexivity.
  - intros key d [[-> ->]|[-> ->]]; apply apart64; vm_compute; reflexivity.
  - intros key d [[-> ->]|[-> ->]]; fine64.
Qed.

Ltac fact_ z :=
  eapply V_call; [reflexivity|vm_compute; reflexivity|choose_
    |eapply (D_more _ _ _ _ _ _ _ _ [GValue (CInt z)] _ []); [apply G_plain; ev|apply D_none]
    |right; eapply (U_function _ _ _ _ 0 _ fact_def [CInt z]);
      [left; split; reflexivity|repeat constructor|reflexivity| |left; reflexivity|]].
Ltac count_ := straight_; eapply E_cons; [eapply E_assign; [reflexivity|vm_compute; reflexivity|ev]|].
Ltac again_ z :=
  count_; eapply E_cons; [|apply E_nil]; apply E_if; eapply E_other_branch; [ev|]; eapply E_branch; [ev|];
  straight_; eapply E_cons; [eapply E_assign; [reflexivity|vm_compute; reflexivity|eapply A_value; [eapply V_binary; [ev|fact_ z|]|]]|apply E_nil].
Lemma compiled64 : compiled_in demo_upcalls [] k64 img64 x22 p64 y64.
Proof.
  eapply (compiled_now demo_upcalls [] [] k22 cimage_default [] p64 []); [apply session_start; reflexivity| |reflexivity|];
    vm_compute; reflexivity.
Qed.
Example C64_case : forall powf, exists s', world s' = [9]%Z /\ vals s' (u "N") = Some (Scalar (CInt 3)) /\
  outcome_of powf (demo_host (ci_upcalls img64)) (runnable img64) (k_syms k64) (fun _ => None) y64 (ctx_new 100) (mkMem (heap_new 10000) []) s' (SigEnd 3).
Proof.
  intros powf. eexists. split; [|split; [|eapply C22_blocks_partial with (n := 5) (d := 0) (l0 := p64) (s0 := mkEnv (fun _ => None) []) (defined := defined64) (host := demo_calls) (l := p64) (x := x22) (s := mkEnv (fun _ => None) [])]].
  3:{ exists x22, y64, (ctx_new 100), (mkMem (heap_new 10000) []). split; [exact compiled64|]. split; [fine64|]. split; [reflexivity|]. apply new_holds. reflexivity. }
  3:{ exact compiled64. }
  3:{ exact linked64. }
  3:{ fine64. }
  3:{ split; [reflexivity|]. apply new_holds. reflexivity. }
  3:{ straight_. eapply E_cons; [apply E_dim|]. eapply E_cons; [apply E_callable|]. eapply E_cons; [apply E_callable|].
      eapply E_cons; [eapply E_assign; [reflexivity|vm_compute; reflexivity|ev]|].
      eapply E_cons.
      { eapply E_call; [reflexivity|vm_compute; reflexivity|choose_
          |eapply (D_more _ _ _ _ _ _ _ _ [GValue (CInt 6)] _ []); [apply G_plain; eapply A_value; [fact_ 3%Z|]|apply D_none]
          |right; eapply (U_sub _ _ _ _ 0 _ show_def [CInt 6]); [right; split; reflexivity|repeat constructor|reflexivity| |left; reflexivity]].
        { again_ 2%Z.
          { again_ 1%Z.
            { count_. eapply E_cons; [|apply E_nil]. apply E_if. eapply E_branch; [ev|].
              straight_. eapply E_cons; [eapply E_assign; [reflexivity|vm_compute; reflexivity|ev]|apply E_nil]. }
            { vm_compute; reflexivity. }
            { vm_compute; reflexivity. }
            { vm_compute; reflexivity. } }
          { vm_compute; reflexivity. }
          { vm_compute; reflexivity. }
          { vm_compute; reflexivity. } }
        { vm_compute; reflexivity. }
        { vm_compute; reflexivity. }
        straight_. eapply E_cons; [|apply E_nil].
        eapply E_call; [reflexivity|vm_compute; reflexivity|choose_|eapply D_more; [apply G_plain; ev|apply D_none]|left; apply demo_out]. }
      eapply E_cons_leaves; [|discriminate]. eapply (E_end_code _ _ _ _ _ _ _ _ _ _ 3); [ev|lia]. }
  { vm_compute. reflexivity. }
  { vm_compute. reflexivity. }
Qed.
