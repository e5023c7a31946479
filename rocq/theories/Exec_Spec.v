(** What statements mean: direct execution of the source on the contents of variables. *)
From Verif Require Import Base Bytecode_Model Mem_Model Mem_Spec Num_Model Vm_Model Vm_Spec Ids_Model Ids_Proofs
  Ast_Model Syms_Model Codegen_Model Exprs_Model Top_Model Incr_Spec Args_Spec Eval_Spec Call_Spec.

(** How running a statement ends. *)
Inductive signal :=
| SigNormal
| SigExitDo
| SigExitFor
| SigLeave (* EXIT SUB, EXIT FUNCTION *)
| SigGoto (label : ustr) (* in upper case *)
| SigReturn
| SigEnd (code : N)
| SigError (e : vm_error).

Definition store {W} (s : env W) (k : ustr) (x : content) : env W :=
  mkEnv (fun k' => if ustr_eqb k k' then Some x else vals s k') (world s).

(** The value of a new variable. *)
Definition default_value (t : etype) : cdatum :=
  match t with
  | TBoolean => CBool false
  | TDouble => CDouble 0
  | TInteger => CInt 0
  | TText => CText []
  end.

(** An array with one element changed. *)
Definition change_element (at_ : list Z -> cdatum) (zs : list Z) (d : cdatum) : list Z -> cdatum :=
  fun zs' => if list_eq_dec Z.eq_dec zs zs' then d else at_ zs'.

Definition opposite (r : res vm_error bool) : res vm_error bool :=
  match r with Ok b => Ok (negb b) | Err x => Err x end.

(** The operator of a CASE IS guard. *)
Definition case_op (o : case_relop) : binop :=
  match o with
  | REqual => BEqual | RNotEqual => BNotEqual | RLess => BLess | RLessEqual => BLessEqual
  | RGreater => BGreater | RGreaterEqual => BGreaterEqual
  end.

(** Statements that make [k] a variable: from there on the compiler has a place for it. *)
Inductive introduces (k : ustr) : stmt -> Prop :=
| I_assign v p e : ascii_upper (vr_name v) = k -> introduces k (StAssignment v p e)
| I_dim name p sh t : ascii_upper name = k -> introduces k (StDim name p sh t)
| I_dim_array name p sh es t : ascii_upper name = k -> introduces k (StDimArray name p sh es t)
| I_iterator v p d start end_ next body : ascii_upper (vr_name v) = k -> introduces k (StFor v p d start end_ next body)
| I_for v p d start end_ next body st : In st body -> introduces k st -> introduces k (StFor v p d start end_ next body)
| I_while e body st : In st body -> introduces k st -> introduces k (StWhile e body)
| I_do g body st : In st body -> introduces k st -> introduces k (StDo g body)
| I_if bs e body st : In (e, body) bs -> In st body -> introduces k st -> introduces k (StIf bs)
| I_select e cs p gs body st : In (gs, body) cs -> In st body -> introduces k st -> introduces k (StSelect e cs p).

Section Exec.
Variable powf : N -> N -> N.
Context {W : Type}.
(** The functions and commands; the names of variables, and of shared ones; and the types of the
    variables that are not arrays.  All by name in upper case. *)
Variable callable : ustr -> option callable_md.
Variable variable : ustr -> bool.
Variable shared : ustr -> bool.
Variable ty : ustr -> option etype.
Variable calls : ustr -> list given -> env W -> res vm_error (option cdatum) -> env W -> Prop.
(** What running from a label on does, until RETURN or an error. *)
Variable subs : ustr -> env W -> env W -> signal -> Prop.
Notation env := (env W).
Notation evals := (evals powf callable variable calls).
Notation evals_as := (evals_as powf callable variable calls).
Notation delivers := (delivers powf callable variable calls).

(** At the end of an iteration of a loop, [now] are the variables; those that did not have a
    content at its beginning are not kept for the next one, unless they are shared. *)
Definition iterate (before now : env) : env :=
  mkEnv (fun k => if shared k then vals now k else match vals before k with Some _ => vals now k | None => None end)
    (world now).

(** After a jump to a label, [now] are the variables.  Those that the block did not start with, as
    [before], and that the statements [l] between its start and the label do not introduce, are not
    kept, unless they are shared. *)
Definition lands (before : env) (l : list stmt) (now now' : env) : Prop :=
  world now' = world now /\
  forall k, let known := shared k = true \/ vals before k <> None \/ Exists (introduces k) l in
    known /\ vals now' k = vals now k \/ ~ known /\ vals now' k = None.

(** A condition. *)
Inductive tests (s : env) (e : expr) : res vm_error bool -> env -> Prop :=
| T_value b s' : evals_as s (Some TBoolean) e (Ok (CBool b)) s' -> tests s e (Ok b) s'
| T_fails x s' : evals_as s (Some TBoolean) e (Err x) s' -> tests s e (Err x) s'.

(** Whether to go on: before the body of a DO loop, and after it. *)
Inductive pre_test (s : env) : do_guard -> res vm_error bool -> env -> Prop :=
| T_pre_until e r s' : tests s e r s' -> pre_test s (GPreUntil e) (opposite r) s'
| T_pre_while e r s' : tests s e r s' -> pre_test s (GPreWhile e) r s'
| T_pre_infinite : pre_test s GInfinite (Ok true) s
| T_pre_none_until e : pre_test s (GPostUntil e) (Ok true) s
| T_pre_none_while e : pre_test s (GPostWhile e) (Ok true) s.
Inductive post_test (s : env) : do_guard -> res vm_error bool -> env -> Prop :=
| T_post_until e r s' : tests s e r s' -> post_test s (GPostUntil e) (opposite r) s'
| T_post_while e r s' : tests s e r s' -> post_test s (GPostWhile e) r s'
| T_post_infinite : post_test s GInfinite (Ok true) s
| T_post_none_until e : post_test s (GPreUntil e) (Ok true) s
| T_post_none_while e : post_test s (GPreWhile e) (Ok true) s.

(** Compares the tested value with that of an expression. *)
Inductive compares (s : env) (d : cdatum) (o : case_relop) (e : expr) : res vm_error bool -> env -> Prop :=
| C_value v b s' : evals s e (Ok v) s' -> apply2 powf (case_op o) d v = Some (Ok (CBool b)) ->
    compares s d o e (Ok b) s'
| C_fails x s' : evals s e (Err x) s' -> compares s d o e (Err x) s'.

(** Whether a guard of a case admits the tested value.  Both ends of a range are evaluated. *)
Inductive admits (s : env) (d : cdatum) : case_guard -> res vm_error bool -> env -> Prop :=
| A_is o e r s' : compares s d o e r s' -> admits s d (CIs o e) r s'
| A_range from to a s1 b s2 : compares s d RGreaterEqual from (Ok a) s1 -> compares s1 d RLessEqual to (Ok b) s2 ->
    admits s d (CTo from to) (Ok (a && b)) s2
| A_from_fails from to x s1 : compares s d RGreaterEqual from (Err x) s1 -> admits s d (CTo from to) (Err x) s1
| A_to_fails from to a s1 x s2 : compares s d RGreaterEqual from (Ok a) s1 -> compares s1 d RLessEqual to (Err x) s2 ->
    admits s d (CTo from to) (Err x) s2.

(** The guards are tested in order until one holds. *)
Inductive admitted (d : cdatum) : env -> list case_guard -> res vm_error bool -> env -> Prop :=
| A_none s : admitted d s [] (Ok false) s
| A_this s g gs s' : admits s d g (Ok true) s' -> admitted d s (g :: gs) (Ok true) s'
| A_fails s g gs x s' : admits s d g (Err x) s' -> admitted d s (g :: gs) (Err x) s'
| A_later s g gs s1 r s' : admits s d g (Ok false) s1 -> admitted d s1 gs r s' -> admitted d s (g :: gs) r s'.

(** Commands know the types of the variables that they are given, even of those that have no
    content yet. *)
Definition told (g : given) : given := match g with GRef k _ => GRef k (ty k) | _ => g end.

(** Integers, one after the other. *)
Definition integers (s : env) (es : list expr) (r : res vm_error (list Z)) (s' : env) : Prop :=
  match r with
  | Ok zs => delivers false s (subscripts es) (Ok (map (fun z => GValue (CInt z)) zs)) s'
  | Err x => delivers false s (subscripts es) (Err x) s'
  end.

Inductive exec : env -> stmt -> env -> signal -> Prop :=
| E_assign s v p e k t d s1 : k = ascii_upper (vr_name v) -> ty k = Some t -> evals_as s (Some t) e (Ok d) s1 ->
    exec s (StAssignment v p e) (store s1 k (Scalar d)) SigNormal
| E_assign_fails s v p e t x s1 : ty (ascii_upper (vr_name v)) = Some t -> evals_as s (Some t) e (Err x) s1 ->
    exec s (StAssignment v p e) s1 (SigError x)
| E_dim s name p sh t :
    exec s (StDim name p sh t) (store s (ascii_upper name) (Scalar (default_value t))) SigNormal
(* Arrays.  The value of an element is computed before the subscripts. *)
| E_dim_array s name p sh es t zs s1 : integers s es (Ok zs) s1 -> Forall (fun z => (0 < z)%Z) zs ->
    (product (map Z.to_N zs) < 2 ^ 60)%N ->
    exec s (StDimArray name p sh es t)
      (store s1 (ascii_upper name) (Elements t (map Z.to_N zs) (fun _ => default_value t))) SigNormal
| E_dim_array_bad s name p sh es t zs s1 i z : integers s es (Ok zs) s1 -> first_nonpositive zs i z ->
    exec s (StDimArray name p sh es t) s1 (SigError (XDimension i))
| E_dim_array_fails s name p sh es t x s1 : integers s es (Err x) s1 ->
    exec s (StDimArray name p sh es t) s1 (SigError x)
| E_element s v p subs e k t dims0 at0 d s1 zs s2 dims at_ : k = ascii_upper (vr_name v) ->
    vals s k = Some (Elements t dims0 at0) -> evals_as s (Some t) e (Ok d) s1 ->
    integers s1 subs (Ok zs) s2 -> vals s2 k = Some (Elements t dims at_) -> valid_subs dims zs ->
    exec s (StArrayAssignment v p subs e) (store s2 k (Elements t dims (change_element at_ zs d))) SigNormal
| E_element_bad s v p subs e k t dims0 at0 d s1 zs s2 dims at_ z n : k = ascii_upper (vr_name v) ->
    vals s k = Some (Elements t dims0 at0) -> evals_as s (Some t) e (Ok d) s1 ->
    integers s1 subs (Ok zs) s2 -> vals s2 k = Some (Elements t dims at_) -> first_bad dims zs z n ->
    exec s (StArrayAssignment v p subs e) s2 (SigError (bad_subscript z n))
| E_element_fails s v p subs e k t x s1 dims at_ : k = ascii_upper (vr_name v) ->
    vals s k = Some (Elements t dims at_) -> evals_as s (Some t) e (Err x) s1 ->
    exec s (StArrayAssignment v p subs e) s1 (SigError x)
| E_subscript_fails s v p subs e k t d s1 x s2 dims at_ : k = ascii_upper (vr_name v) ->
    vals s k = Some (Elements t dims at_) -> evals_as s (Some t) e (Ok d) s1 -> integers s1 subs (Err x) s2 ->
    exec s (StArrayAssignment v p subs e) s2 (SigError x)
(* Commands *)
| E_call s v p args k md syn gs s1 s2 : k = ascii_upper (vr_name v) -> callable k = Some md ->
    chosen md (length args) syn -> delivers true s (wants syn args) (Ok gs) s1 -> calls k (map told gs) s1 (Ok None) s2 ->
    exec s (StCall v p args) s2 SigNormal
| E_call_fails s v p args k md syn gs s1 x s2 : k = ascii_upper (vr_name v) -> callable k = Some md ->
    chosen md (length args) syn -> delivers true s (wants syn args) (Ok gs) s1 -> calls k (map told gs) s1 (Err x) s2 ->
    exec s (StCall v p args) s2 (SigError x)
| E_argument_fails s v p args k md syn x s1 : k = ascii_upper (vr_name v) -> callable k = Some md ->
    chosen md (length args) syn -> delivers true s (wants syn args) (Err x) s1 ->
    exec s (StCall v p args) s1 (SigError x)
(* Declarations, definitions, labels and data do nothing when they are reached. *)
| E_data s l : exec s (StData l) s SigNormal
| E_declare s v p ps : exec s (StDeclare v p ps) s SigNormal
| E_callable s v p ps body q : exec s (StCallable v p ps body q) s SigNormal
| E_label s l p : exec s (StLabel l p) s SigNormal
(* GOTO, and GOSUB: after RETURN, variables are kept as from one iteration to the next *)
| E_goto s l p : exec s (StGoto l p) s (SigGoto (ascii_upper l))
| E_gosub s l p s1 : subs (ascii_upper l) s s1 SigReturn -> exec s (StGosub l p) (iterate s s1) SigNormal
| E_gosub_fails s l p x s1 : subs (ascii_upper l) s s1 (SigError x) -> exec s (StGosub l p) s1 (SigError x)
| E_return s p : exec s (StReturn p) s SigReturn
(* END *)
| E_end s p : exec s (StEnd None p) s (SigEnd 0)
| E_end_code s e p z s1 : evals_as s (Some TInteger) e (Ok (CInt z)) s1 -> (0 <= z < 128)%Z ->
    exec s (StEnd (Some e) p) s1 (SigEnd (Z.to_N z))
| E_end_bad s e p z s1 : evals_as s (Some TInteger) e (Ok (CInt z)) s1 -> ~ (0 <= z < 128)%Z ->
    exec s (StEnd (Some e) p) s1 (SigError (XExitCode z))
| E_end_fails s e p x s1 : evals_as s (Some TInteger) e (Err x) s1 -> exec s (StEnd (Some e) p) s1 (SigError x)
(* IF *)
| E_if s bs s' g : exec_branches s bs s' g -> exec s (StIf bs) s' g
(* SELECT *)
| E_select s e cs p d s1 s' g : evals s e (Ok d) s1 -> exec_cases s1 d cs s' g ->
    exec s (StSelect e cs p) s' g
| E_select_fails s e cs p x s1 : evals s e (Err x) s1 -> exec s (StSelect e cs p) s1 (SigError x)
(* WHILE *)
| E_while_done s e body s1 : tests s e (Ok false) s1 -> exec s (StWhile e body) s1 SigNormal
| E_while_fails s e body x s1 : tests s e (Err x) s1 -> exec s (StWhile e body) s1 (SigError x)
| E_while_leaves s e body s1 s' g : tests s e (Ok true) s1 -> execs s1 body s' g -> g <> SigNormal ->
    exec s (StWhile e body) s' g
| E_while_again s e body s0 s1 s' g : tests s e (Ok true) s0 -> execs s0 body s1 SigNormal ->
    exec (iterate s s1) (StWhile e body) s' g -> exec s (StWhile e body) s' g
(* DO *)
| E_do_done s g body s1 : pre_test s g (Ok false) s1 -> exec s (StDo g body) s1 SigNormal
| E_do_fails s g body x s1 : pre_test s g (Err x) s1 -> exec s (StDo g body) s1 (SigError x)
| E_do_exits s g body s1 s' : pre_test s g (Ok true) s1 -> execs s1 body s' SigExitDo ->
    exec s (StDo g body) s' SigNormal
| E_do_leaves s g body s1 s' sg : pre_test s g (Ok true) s1 -> execs s1 body s' sg ->
    sg <> SigNormal -> sg <> SigExitDo -> exec s (StDo g body) s' sg
| E_do_stops s g body s1 s2 s' : pre_test s g (Ok true) s1 -> execs s1 body s2 SigNormal ->
    post_test s2 g (Ok false) s' -> exec s (StDo g body) s' SigNormal
| E_do_fails_after s g body s1 s2 x s' : pre_test s g (Ok true) s1 -> execs s1 body s2 SigNormal ->
    post_test s2 g (Err x) s' -> exec s (StDo g body) s' (SigError x)
| E_do_again s g body s1 s2 s3 s' sg : pre_test s g (Ok true) s1 -> execs s1 body s2 SigNormal ->
    post_test s2 g (Ok true) s3 -> exec (iterate s s3) (StDo g body) s' sg ->
    exec s (StDo g body) s' sg
| E_exit_do s p : exec s (StExitDo p) s SigExitDo
(* FOR *)
| E_for s v p dbl start end_ next body k t d s1 s' g : k = ascii_upper (vr_name v) -> ty k = Some t ->
    evals_as s (Some t) start (Ok d) s1 -> exec_for (store s1 k (Scalar d)) k t end_ next body s' g ->
    exec s (StFor v p dbl start end_ next body) s' g
| E_for_fails s v p dbl start end_ next body t x s1 : ty (ascii_upper (vr_name v)) = Some t ->
    evals_as s (Some t) start (Err x) s1 -> exec s (StFor v p dbl start end_ next body) s1 (SigError x)
| E_exit_for s p : exec s (StExitFor p) s SigExitFor
| E_exit_function s p : exec s (StExitFunction p) s SigLeave
| E_exit_sub s p : exec s (StExitSub p) s SigLeave
(* The rounds of a FOR loop after the iterator got its first value: [end_] says whether to go
   on and [next] is the next value of the iterator. *)
with exec_for : env -> ustr -> etype -> expr -> expr -> list stmt -> env -> signal -> Prop :=
| E_rounds_done s k t end_ next body s1 : tests s end_ (Ok false) s1 ->
    exec_for s k t end_ next body s1 SigNormal
| E_rounds_fails s k t end_ next body x s1 : tests s end_ (Err x) s1 ->
    exec_for s k t end_ next body s1 (SigError x)
| E_rounds_exits s k t end_ next body s1 s' : tests s end_ (Ok true) s1 -> execs s1 body s' SigExitFor ->
    exec_for s k t end_ next body s' SigNormal
| E_rounds_leaves s k t end_ next body s1 s' g : tests s end_ (Ok true) s1 -> execs s1 body s' g ->
    g <> SigNormal -> g <> SigExitFor -> exec_for s k t end_ next body s' g
| E_rounds_next_fails s k t end_ next body s1 s2 x s' : tests s end_ (Ok true) s1 ->
    execs s1 body s2 SigNormal -> evals_as s2 (Some t) next (Err x) s' ->
    exec_for s k t end_ next body s' (SigError x)
| E_rounds_again s k t end_ next body s1 s2 d s3 s' g : tests s end_ (Ok true) s1 ->
    execs s1 body s2 SigNormal -> evals_as s2 (Some t) next (Ok d) s3 ->
    exec_for (iterate s (store s3 k (Scalar d))) k t end_ next body s' g ->
    exec_for s k t end_ next body s' g
(* The first branch whose condition holds. *)
with exec_branches : env -> list (expr * list stmt) -> env -> signal -> Prop :=
| E_no_branch s : exec_branches s [] s SigNormal
| E_branch s e body bs s1 s' g : tests s e (Ok true) s1 -> execs s1 body s' g ->
    exec_branches s ((e, body) :: bs) s' g
| E_other_branch s e body bs s1 s' g : tests s e (Ok false) s1 -> exec_branches s1 bs s' g ->
    exec_branches s ((e, body) :: bs) s' g
| E_branch_fails s e body bs x s1 : tests s e (Err x) s1 ->
    exec_branches s ((e, body) :: bs) s1 (SigError x)
(* The first case that admits the value; CASE ELSE has no guards and admits any. *)
with exec_cases : env -> cdatum -> list (list case_guard * list stmt) -> env -> signal -> Prop :=
| E_no_case s d : exec_cases s d [] s SigNormal
| E_case_else s d body cs s' g : execs s body s' g -> exec_cases s d (([], body) :: cs) s' g
| E_case s d gs body cs s1 s' g : admitted d s gs (Ok true) s1 -> execs s1 body s' g ->
    exec_cases s d ((gs, body) :: cs) s' g
| E_other_case s d gs body cs s1 s' g : gs <> [] -> admitted d s gs (Ok false) s1 ->
    exec_cases s1 d cs s' g -> exec_cases s d ((gs, body) :: cs) s' g
| E_case_fails s d gs body cs x s1 : admitted d s gs (Err x) s1 ->
    exec_cases s d ((gs, body) :: cs) s1 (SigError x)
(* One statement after the other *)
with exec_list : env -> list stmt -> env -> signal -> Prop :=
| E_nil s : exec_list s [] s SigNormal
| E_cons s st l s1 s' g : exec s st s1 SigNormal -> exec_list s1 l s' g -> exec_list s (st :: l) s' g
| E_cons_leaves s st l s' g : exec s st s' g -> g <> SigNormal -> exec_list s (st :: l) s' g
(* What comes after [s1] and [g] in the block [l], which started with [s]: jumps to labels in it *)
with exec_jumps : env -> list stmt -> env -> signal -> env -> signal -> Prop :=
| E_no_jump s l s1 g : (forall name p, In (StLabel name p) l -> g <> SigGoto (ascii_upper name)) -> exec_jumps s l s1 g s1 g
| E_jump s before name p after s1 s2 s3 g s' g' : lands s before s1 s2 -> exec_list s2 after s3 g ->
    exec_jumps s (before ++ StLabel name p :: after) s3 g s' g' ->
    exec_jumps s (before ++ StLabel name p :: after) s1 (SigGoto (ascii_upper name)) s' g'
(* A block *)
with execs : env -> list stmt -> env -> signal -> Prop :=
| E_block s l s1 g s' g' : exec_list s l s1 g -> exec_jumps s l s1 g s' g' -> execs s l s' g'.
End Exec.

(** * Statements to which this applies *)

(** The expressions in a statement that [exec] evaluates, with the variable that gets the value. *)
Inductive occurs (e : expr) : option varref -> stmt -> Prop :=
| O_assign v p : occurs e (Some v) (StAssignment v p e)
| O_dim_array name p sh es t : In e es -> occurs e None (StDimArray name p sh es t)
| O_element v p subs : occurs e None (StArrayAssignment v p subs e)
| O_subscript v p subs e' : In e subs -> occurs e None (StArrayAssignment v p subs e')
| O_argument v p args sep q : In (Some e, sep, q) args -> occurs e None (StCall v p args)
| O_end p : occurs e None (StEnd (Some e) p)
| O_if body bs : In (e, body) bs -> occurs e None (StIf bs)
| O_if_body o e' body bs s : In (e', body) bs -> In s body -> occurs e o s -> occurs e o (StIf bs)
| O_while body : occurs e None (StWhile e body)
| O_while_body o e' body s : In s body -> occurs e o s -> occurs e o (StWhile e' body)
| O_pre_until body : occurs e None (StDo (GPreUntil e) body)
| O_pre_while body : occurs e None (StDo (GPreWhile e) body)
| O_post_until body : occurs e None (StDo (GPostUntil e) body)
| O_post_while body : occurs e None (StDo (GPostWhile e) body)
| O_do_body o g body s : In s body -> occurs e o s -> occurs e o (StDo g body)
| O_for_start v p d end_ next body : occurs e (Some v) (StFor v p d e end_ next body)
| O_for_end v p d start next body : occurs e None (StFor v p d start e next body)
| O_for_next v p d start end_ body : occurs e (Some v) (StFor v p d start end_ e body)
| O_for_body o v p d start end_ next body s : In s body -> occurs e o s -> occurs e o (StFor v p d start end_ next body)
| O_select cs p : occurs e None (StSelect e cs p)
| O_case_is e' cs p gs body o : In (gs, body) cs -> In (CIs o e) gs -> occurs e None (StSelect e' cs p)
| O_case_from e' cs p gs body to : In (gs, body) cs -> In (CTo e to) gs -> occurs e None (StSelect e' cs p)
| O_case_to e' cs p gs body from : In (gs, body) cs -> In (CTo from e) gs -> occurs e None (StSelect e' cs p)
| O_case_body o e' cs p gs body s : In (gs, body) cs -> In s body -> occurs e o s -> occurs e o (StSelect e' cs p).

(** [k] is used as a variable in [e]. *)
Definition mentions (k : ustr) (e : expr) : Prop :=
  ~ within (fun called v => called = false -> ascii_upper (vr_name v) <> k) (fun _ => True) e.
Definition user_function (L : lsyms) (k : ustr) : Prop :=
  exists md, get_callable (ls_global L) k = Some md /\ md_user md = true.

(** An assignment computes the value within the variable, unless the expression mentions the
    variable.  That goes wrong if the expression starts with a function of the program without
    arguments, see [C18_changes_no_variable_refuted], or calls functions of the program and the variable is
    shared, see [C20_calls_refuted]. *)
Definition computed_apart (L : lsyms) (v : varref) (e : expr) : Prop :=
  (forall w p, leftmost e = ESymbol w p -> ~ user_function L (ascii_upper (vr_name w))) /\
  (is_shared L (ascii_upper (vr_name v)) = false \/ mentions (ascii_upper (vr_name v)) e \/
   within (fun _ w => ~ user_function L (ascii_upper (vr_name w))) (fun _ => True) e).

(** The integer literals of the statement are 32-bit integers, and its assignments are not like
    those. *)
Definition stmt_fine (L : lsyms) (st : stmt) : Prop := forall e o, occurs e o st ->
  within (fun _ _ => True) in_i32 e /\ forall v, o = Some v -> computed_apart L v e.

(** * The machine *)

Section Outcomes.
Variable powf : N -> N -> N.
Context {W : Type}.
Variable upcall : N -> N -> nat -> image -> ctx -> heap -> W -> option (upcall_result W).
Variable img : image.
Variable L : lsyms.
Variable hidden : N -> option hdatum.
Variable calls : ustr -> list given -> env W -> res vm_error (option cdatum) -> env W -> Prop.

(** Execution where the tables are [L] at the end of the program. *)
Section Subs.
Variable subs : ustr -> env W -> env W -> signal -> Prop.
Definition exec_in := exec powf (get_callable (ls_global L)) (is_variable L) (is_shared L) (declared L) calls subs.
Definition execs_in := execs powf (get_callable (ls_global L)) (is_variable L) (is_shared L) (declared L) calls subs.

Definition exec_branches_in := exec_branches powf (get_callable (ls_global L)) (is_variable L) (is_shared L) (declared L) calls subs.
Definition exec_cases_in := exec_cases powf (get_callable (ls_global L)) (is_variable L) (is_shared L) (declared L) calls subs.
Definition exec_jumps_in := exec_jumps powf (get_callable (ls_global L)) (is_variable L) (is_shared L) (declared L) calls subs.
End Subs.

(** GOSUB runs from a label of the block [l] on, with GOTO and further ones, one within another at
    most [n] deep, until RETURN or an error.  The block started with [s]. *)
Fixpoint gosubs (n : nat) (s : env W) (l : list stmt) : ustr -> env W -> env W -> signal -> Prop :=
  match n with
  | O => fun _ _ _ _ => False
  | S n => fun label s1 s' g => (g = SigReturn \/ exists e, g = SigError e) /\
      exec_jumps_in (gosubs n s l) s l s1 (SigGoto label) s' g
  end.

(** Where the machine ends up after the code between two compiler states, for each way in which
    the statements end.  After an EXIT it is at one of the jumps out of the innermost loop, or out
    of the function; after a GOTO at an instruction that was to be filled in with the address of
    the label. *)
Definition place (x' : sst) (g : signal) (c' : ctx) (m' : mem W) : Prop :=
  match g with
  | SigNormal => c_pc c' = s_pc x'
  | SigExitDo => exists top rest, t_do (fst x') = top :: rest /\ In (c_pc c') (map fst top)
  | SigExitFor => exists top rest, t_for (fst x') = top :: rest /\ In (c_pc c') (map fst top)
  | SigLeave => In (c_pc c') (map fst (t_exits (fst x')))
  | SigGoto l => exists name, ascii_upper name = l /\ In (c_pc c', FxGoto name) (g_fixups (s_gen x'))
  | SigReturn => fetched img (c_pc c') IReturn
  | SigEnd code => exists h', step powf img c' m' = RStop (SEnd code) c' h'
  | SigError e => False
  end.

(** Running from [c] ends as [s'] and [g] say, or memory runs out on the way. *)
Definition outcome_of (x' : sst) (c : ctx) (m : mem W) (s' : env W) (g : signal) : Prop :=
  exists c' m', runs powf upcall img c m c' m' /\
    (gives_up powf upcall img c' m' \/
     match g with
     | SigError e => fails powf upcall img c' m' e (world s')
     | _ => same_frame c c' /\ texts_kept m m' /\ place x' g c' m' /\
         holding L hidden (i_constants img) (snd x') None (set_yield c' false) m' s'
     end).

(** The machine is at the start of the code after [x] with the contents of [s] in the variables.
    It may be about to yield. *)
Definition ready (x : sst) (c : ctx) (m : mem W) (s : env W) : Prop :=
  c_pc c = s_pc x /\ holding L hidden (i_constants img) (snd x) None (set_yield c false) m s.
End Outcomes.

(** The statements [l] are, one after the other, in an input of a session: [x] is the compiler
    before them, and [x'] after them.  With that input, and perhaps further ones, the session got
    to the compiler [k] and the image [img]. *)
Inductive compiled_in (upcalls : list (ustr * callable_md)) (defs : list global_def)
  : compiler -> cimage -> sst -> list stmt -> sst -> Prop :=
| compiled_now srcs k img before l after x x' k' img' : session upcalls defs srcs k img ->
    compile_more k img (before ++ l ++ after, None) = (Compiled, k', img') ->
    compile_stmts before (set_gen (pop_eof (t_gen (k_ctx k))) (k_ctx k), k_syms k) = COk x ->
    compile_stmts l x = COk x' -> compiled_in upcalls defs k' img' x l x'
| compiled_before k img x l x' src o k' img' : compiled_in upcalls defs k img x l x' ->
    compile_more k img src = (o, k', img') -> compiled_in upcalls defs k' img' x l x'.

(** The statements [l] are in a session like that, and at their start the contents of the variables
    may be [s]. *)
Definition around {W} (upcalls : list (ustr * callable_md)) (defs : list global_def) (k : compiler) (img : cimage)
    (hidden : N -> option hdatum) (l : list stmt) (s : env W) : Prop :=
  exists x x' c m, compiled_in upcalls defs k img x l x' /\ Forall (stmt_fine (k_syms k)) l /\
    ready (runnable img) (k_syms k) hidden x c m s.

(** Nothing but functions and commands of the host is called. *)
Definition calls_host {W} (L : lsyms) (calls : ustr -> list given -> env W -> res vm_error (option cdatum) -> env W -> Prop) : Prop :=
  forall k gs s r s', calls k gs s r s' -> assoc (gs_upcalls (ls_global L)) k <> None.

(** A program whose names do not hide each other, with a host that does what [calls] says. *)
Record hosted {W} (upcall : N -> N -> nat -> image -> ctx -> heap -> W -> option (upcall_result W))
    (k : compiler) (img : cimage)
    (calls : ustr -> list given -> env W -> res vm_error (option cdatum) -> env W -> Prop) : Prop := mkHosted {
  ho_shadow : no_shadowing (k_syms k);
  ho_apart : names_apart (k_syms k);
  ho_obeys : host_obeys upcall (runnable img) (ci_upcalls img) calls (gs_upcalls (ls_global (k_syms k))) (is_shared (k_syms k));
  ho_only : calls_host (k_syms k) calls
}.
