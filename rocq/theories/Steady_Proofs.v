(** What compiling expressions, and statements that do not jump, does to the generated code: a
    property of generated code that appending instructions and fixups of calls keeps is kept. *)
From Verif Require Import Base Bytecode_Model Bytecode_Spec Bytecode_Proofs Mem_Model Vm_Model Ids_Model
  Ast_Model Syms_Model Syms_Proofs Codegen_Model Codegen_Proofs Exprs_Model Exprs_Proofs Top_Model
  Top_Proofs Range_Proofs.

Definition quiet (i : instr) : Prop :=
  match i with IJump _ | IJumpIfFalse _ _ | ISetErrorHandler _ _ => False | _ => True end.

(** What expressions do to the code: they append instructions that neither jump nor install handlers and add fixups
    of calls. *)
Record steady (P : codegen -> Prop) : Prop := mkSteady {
  st_emit : forall i pos g, quiet i -> P g -> P (emit i pos g);
  st_constants : forall g m, P g ->
    P (mkCodegen (g_code g) (g_instrs g) m (g_fixups g) (g_labels g) (g_callables g) (g_upcalls g));
  st_upcalls : forall g m, P g ->
    P (mkCodegen (g_code g) (g_instrs g) (g_constants g) (g_fixups g) (g_labels g) (g_callables g) m);
  st_call : forall r k pos g, P g -> P (add_fixup (next_pc g) (FxCall r k) (emit INop pos g));
  st_call_args : forall r k pos l g, P g -> P (add_fixup (next_pc g) (FxCall r k) (set_arg_linecols (next_pc g) l (emit INop pos g)));
  st_args : forall a l g, P g -> P (set_arg_linecols a l g)
}.

Section Steady.
Variable P : codegen -> Prop.
Hypothesis keep : steady P.

Lemma constant_st c pos g (Q : _ -> Prop) : P g -> (forall g' i, P g' -> Q (g', i)) -> wp (get_constant c pos g) Q.
Proof.
  intros A H. unfold get_constant. destruct (id_get _ _ _) as [[t i]|] eqn:E; cbn [wp]; auto.
  destruct (id_insert _ _ _ _ _) as [[m [o i]]|] eqn:F; cbn [wp]; auto. apply H, (st_constants P keep), A.
Qed.
Lemma upcall_st k t pos g (Q : _ -> Prop) : P g -> (forall g' i, P g' -> Q (g', i)) -> wp (get_upcall k t pos g) Q.
Proof.
  intros A H. unfold get_upcall. destruct (id_get _ _ _) as [[t' i]|] eqn:E; cbn [wp]; auto.
  destruct (id_insert _ _ _ _ _) as [[m [o i]]|] eqn:F; cbn [wp]; auto. apply H, (st_upcalls P keep), A.
Qed.
Lemma default_quiet r t : quiet (default_instr r t).
Proof. destruct t; exact I. Qed.
Lemma upcall_quiet md i r : quiet (upcall_instr md i r).
Proof. unfold upcall_instr. destruct (md_async md); exact I. Qed.

Ltac ps1 :=
  match goal with
  | |- P (fst (_, _)) => cbn [fst]
  | |- P (emit _ _ _) => apply (st_emit P keep)
  | |- P (add_fixup _ (FxCall _ _) (emit _ _ _)) => apply (st_call P keep)
  | |- P (add_fixup _ (FxCall _ _) (set_arg_linecols _ _ _)) => apply (st_call_args P keep)
  | |- P (set_arg_linecols _ _ _) => apply (st_args P keep)
  | |- P (emit_default _ _ _ _) => unfold emit_default
  | |- P (if ?b then _ else _) => destruct b
  | |- P _ => assumption
  | |- quiet (default_instr _ _) => apply default_quiet
  | |- quiet (upcall_instr _ _ _) => apply upcall_quiet
  | |- quiet _ => exact I
  end.
Ltac ps := repeat ps1.

Lemma emit_value_st r d pos g (Q : _ -> Prop) : P g -> (forall g', P g' -> Q g') -> wp (emit_value r d pos g) Q.
Proof.
  intros R H. unfold emit_value. destruct d as [b|f|z|s].
  - cbn [wp]. apply H. ps.
  - apply wp_bind, constant_st; [exact R|]. intros g' i R'. cbn [wp]. apply H. ps.
  - destruct (_ && _) eqn:E.
    + cbn [wp]. apply H. ps.
    + apply wp_bind, constant_st; [exact R|]. intros g' i R'. cbn [wp]. apply H. ps.
  - apply wp_bind, constant_st; [exact R|]. intros g' i R'. cbn [wp]. apply H. ps.
Qed.

Definition csteady (c : closure) : Prop := forall r st (Q : _ -> Prop), P (fst st) ->
  (forall st' t, P (fst st') -> Q (st', t)) -> wp (c r st) Q.

Ltac wst :=
  match goal with
  | |- wp (COk _) _ => cbn [wp]
  | |- wp (CErr _) _ => exact I
  | |- wp CPanic _ => exact I
  | |- wp (bind _ _) _ => apply wp_bind
  | |- wp (map_error _ _) _ => apply wp_map_error
  | |- wp (get_constant _ _ _) _ => apply constant_st; [ps|intros]
  | |- wp (get_upcall _ _ _ _) _ => apply upcall_st; [ps|intros]
  | |- wp (emit_value _ _ _ _) _ => apply emit_value_st; [ps|intros]
  | |- wp (match ?e with _ => _ end) _ => destruct e eqn:?
  end; cbn beta iota.

Section Expr.
Variable ls : lsyms.

Lemma open_st st (Q : _ -> Prop) : (forall s, Q s) -> wp (open_scope ls st) Q.
Proof. intros H. unfold open_scope. destruct (temp_scope _ _); cbn [wp]; auto. Qed.
Lemma alloc_st s pos st (Q : _ -> Prop) : P (fst st) ->
  (forall r s' st', P (fst st') -> Q (r, s', st')) -> wp (alloc s pos st) Q.
Proof.
  intros R H. unfold alloc. destruct (scope_alloc _ _) as [[[r s'] t]|] eqn:E; cbn [wp]; auto.
Qed.

Ltac est_ :=
  first [ wst
        | match goal with
          | |- wp (open_scope _ _) _ => apply open_st; intros ?
          | |- wp (alloc _ _ _) _ => apply alloc_st; [ps|intros]
          end ]; cbn beta iota.

Lemma unary_st o pos reg t st (Q : _ -> Prop) : P (fst st) ->
  (forall st' t, P (fst st') -> Q (st', t)) -> wp (apply_unary ls o pos reg t st) Q.
Proof.
  intros R H. unfold apply_unary, e_emit, close. repeat est_; try (apply H; ps); destruct o; exact I.
Qed.

Lemma resolve_numeric_st r lt rt_ rtt rpos op_pos g g' t : P g ->
  resolve_numeric r lt rt_ rtt rpos op_pos g = Some (g', t) -> P g'.
Proof.
  intros R. unfold resolve_numeric. destruct lt, rtt; intros H; try discriminate H; injection H as <- _; ps.
Qed.

Lemma binary_op_st o pos reg t rtemp rt rpos g (Q : _ -> Prop) :
  P g -> (forall g' t, P g' -> Q (g', t)) -> wp (binary_op o pos reg t rtemp rt rpos g) Q.
Proof.
  intros R H. unfold binary_op. cbn zeta. repeat wst; try (apply H; ps);
    (eapply resolve_numeric_st; [exact R|eassumption]).
Qed.
Lemma relational_op_st o pos reg t rtemp rt rpos g (Q : _ -> Prop) :
  P g -> (forall g' t, P g' -> Q (g', t)) -> wp (relational_op o pos reg t rtemp rt rpos g) Q.
Proof.
  intros R H. unfold relational_op. cbn zeta. repeat wst; try (apply H; ps);
    (eapply resolve_numeric_st; [exact R|eassumption]).
Qed.

Lemma binary_st o pos rhs rpos reg t st (Q : _ -> Prop) : csteady rhs -> P (fst st) ->
  (forall st' t, P (fst st') -> Q (st', t)) -> wp (apply_binary ls o pos rhs rpos reg t st) Q.
Proof.
  intros C R H. unfold apply_binary, close. repeat est_. apply C; [ps|]. intros st1 t1 R1.
  repeat est_. destruct (is_relational o).
  - apply relational_op_st; [ps|]. intros g2 t2 R2. repeat est_. apply H. ps.
  - apply binary_op_st; [ps|]. intros g2 t2 R2. repeat est_. apply H. ps.
Qed.

Lemma as_type_st c p reg t st (Q : _ -> Prop) : csteady c -> P (fst st) ->
  (forall st', P (fst st') -> Q st') -> wp (as_type c p reg t st) Q.
Proof.
  intros C R H. unfold as_type. repeat est_. apply C; [ps|]. intros st1 t1 R1. repeat est_.
  - apply H. ps.
  - apply H. cbn [fst]. destruct t1, t; cbn [cast_numerical] in *; try discriminate;
      match goal with E : Some _ = Some _ |- _ => injection E as <- end; ps.
Qed.

Definition oa_steady (o : option (expr * closure)) : Prop :=
  match o with Some (_, c) => csteady c | None => True end.

Lemma integer_exprs_st es : forall s pos first st (Q : _ -> Prop), Forall oa_steady es ->
  P (fst st) -> (forall o s' st', P (fst st') -> Q (o, s', st')) ->
  wp (integer_exprs es s pos first st) Q.
Proof.
  induction es as [|[[e c]|] es IH]; intros s pos first st Q F R H; cbn [integer_exprs]; repeat est_.
  - apply H; assumption.
  - inversion F as [|? ? C F']; subst. cbn [oa_steady] in C. apply as_type_st; [exact C|ps|].
    intros st2 R2. apply IH; [exact F'|exact R2|exact H].
Qed.

Definition a_steady (a : carg) : Prop := oa_steady (fst (fst a)).

Lemma array_access_st reg kp arr t n args st (Q : _ -> Prop) : Forall a_steady args -> P (fst st) ->
  (forall st' t, P (fst st') -> Q (st', t)) -> wp (array_access ls reg kp arr t n args st) Q.
Proof.
  intros F R H. unfold array_access, e_emit, close. repeat est_.
  apply integer_exprs_st; [|ps|].
  - clear -F. induction F; constructor; auto.
  - intros [f|] s' st' R'; repeat est_. apply H. ps.
Qed.

(** Arguments. *)
Definition asteady (a : argst) : Prop := P (fst (snd (fst a))).

Lemma arg_alloc_st pos a (Q : _ -> Prop) : asteady a ->
  (forall r a', asteady a' -> Q (r, a')) -> wp (arg_alloc pos a) Q.
Proof.
  destruct a as [[s st] l]. intros R H. unfold arg_alloc. repeat est_. apply H. unfold asteady. ps.
Qed.
Lemma arg_emit_st i pos a : asteady a -> quiet i -> asteady (arg_emit i pos a).
Proof. destruct a as [[s st] l]. unfold asteady, arg_emit, e_emit. cbn [fst snd]. intros. ps. assumption. Qed.
Lemma arg_compile_st c r a (Q : _ -> Prop) : csteady c -> asteady a ->
  (forall a' t, asteady a' -> Q (a', t)) -> wp (arg_compile c r a) Q.
Proof.
  destruct a as [[s st] l]. intros C R H. unfold arg_compile. repeat est_. apply C; [exact R|].
  intros st1 t1 R1. repeat est_. apply H. exact R1.
Qed.
Lemma arg_compile_as_st c p r t a (Q : _ -> Prop) : csteady c -> asteady a ->
  (forall a', asteady a' -> Q a') -> wp (arg_compile_as c p r t a) Q.
Proof.
  destruct a as [[s st] l]. intros C R H. unfold arg_compile_as. repeat est_.
  apply as_type_st; [exact C|exact R|]. intros st1 R1. repeat est_. apply H. exact R1.
Qed.
Lemma lookup_ref_st md b d v p pb (Q : _ -> Prop) : (forall r t, Q (r, t)) ->
  wp (lookup_ref ls md b d v p pb) Q.
Proof. intros H. unfold lookup_ref. repeat wst; apply H. Qed.

Ltac ast_ :=
  first [ est_
        | match goal with
          | |- wp (arg_alloc _ _) _ => apply arg_alloc_st; [assumption|intros]
          | |- wp (validate_argsep _ _ _ _ _) _ => apply sep_wp
          | |- wp (lookup_ref _ _ _ _ _ _ _) _ => apply lookup_ref_st; intros
          | |- wp (arg_compile_as _ _ _ _ _) _ => apply arg_compile_as_st; [assumption|assumption|intros]
          | |- wp (arg_compile _ _ _) _ => apply arg_compile_st; [assumption|assumption|intros]
          end ]; cbn beta iota.
Ltac aemit := apply arg_emit_st; [assumption|exact I].

Lemma singular_arg_st md kp syn e args a (Q : _ -> Prop) : Forall a_steady args -> asteady a ->
  (forall args' a', Forall a_steady args' -> asteady a' -> Q (args', a')) ->
  wp (singular_arg ls md kp syn e args a) Q.
Proof.
  intros F R H. unfold singular_arg. destruct syn.
  - destruct args as [|[[[[x c]|] sp1] sp] args]; repeat ast_. inversion F as [|? ? C F']; subst.
    cbn in C. repeat ast_. apply H; assumption.
  - destruct args as [|[[[[x c]|] sp1] sp] args]; repeat ast_. inversion F as [|? ? C F']; subst.
    apply H; [assumption|]. aemit.
  - destruct args as [|[[[[x c]|] sp1] sp] args]; repeat ast_.
    + apply H; [constructor|]. aemit.
    + inversion F as [|? ? C F']; subst. cbn in C. repeat ast_. apply H; [assumption|]. aemit.
    + inversion F as [|? ? C F']; subst. apply H; [assumption|]. aemit.
  - destruct args as [|[[[[x c]|] sp1] sp] args]; repeat ast_.
    + apply H; [constructor|]. aemit.
    + inversion F as [|? ? C F']; subst. cbn in C. repeat ast_. apply H; [assumption|]. aemit.
    + inversion F as [|? ? C F']; subst. apply H; [assumption|]. aemit.
Qed.

Lemma singular_args_st md kp one syns : forall args a (Q : _ -> Prop), Forall a_steady args -> asteady a ->
  (forall args' a', Forall a_steady args' -> asteady a' -> Q (args', a')) ->
  wp (singular_args ls md kp one syns args a) Q.
Proof.
  induction syns as [|syn syns IH]; intros args a Q F R H; cbn [singular_args]; repeat wst.
  - apply H; assumption.
  - apply singular_arg_st; [exact F|exact R|]. intros args' a' F' R'. apply IH; assumption.
Qed.

Lemma plain_args_st md syn t args : forall a (Q : _ -> Prop), Forall a_steady args -> asteady a ->
  (forall a', asteady a' -> Q a') -> wp (plain_args md syn t args a) Q.
Proof.
  induction args as [|[[[[x c]|] sep] sp] args IH]; intros a Q F R H; cbn [plain_args]; repeat ast_; auto.
  inversion F as [|? ? C F']; subst. cbn in C. repeat ast_. apply IH; assumption.
Qed.

Lemma tagged_args_st md rp args : forall a (Q : _ -> Prop), Forall a_steady args -> asteady a ->
  (forall a', asteady a' -> Q a') -> wp (tagged_args ls md rp args a) Q.
Proof.
  induction args as [|[[[[x c]|] sp1] sp] args IH]; intros a Q F R H; cbn [tagged_args].
  1: cbn [wp]; auto.
  all: inversion F as [|? ? C F']; subst; cbn in C; repeat ast_;
    (apply IH; [assumption| |assumption]); repeat (apply arg_emit_st; [|exact I]); assumption.
Qed.

Lemma compile_args_st md kp args st (Q : _ -> Prop) : Forall a_steady args -> P (fst st) ->
  (forall st' r l, P (fst st') -> Q (st', r, l)) -> wp (compile_args ls md kp args st) Q.
Proof.
  intros F R H. unfold compile_args. repeat est_. apply singular_args_st; [exact F|exact R|].
  intros rest a F' R'. repeat wst.
  all: try (destruct a as [[? ?] ?]; repeat est_; apply H; exact R').
  all: try (apply plain_args_st; [assumption|assumption|]; intros ? R''; repeat wst; apply H; exact R'').
  all: try (repeat ast_).
  all: try (apply tagged_args_st; [assumption| |]; [try assumption; aemit|]; intros ? R''; repeat wst;
            apply H; exact R'').
Qed.

Lemma compile_call_st v p args reg st (Q : _ -> Prop) : Forall a_steady args ->
  P (fst st) -> (forall st' t, P (fst st') -> Q (st', t)) ->
  wp (compile_call ls v p args reg st) Q.
Proof.
  intros F R H. unfold compile_call, close. cbn zeta. repeat est_.
  - apply compile_args_st; [exact F|ps|]. intros st9 r9 l9 R9. repeat est_; apply H; ps.
  - apply array_access_st; [exact F|ps|exact H].
Qed.

Lemma compile_symbol_st v p : csteady (compile_symbol ls v p).
Proof.
  intros reg st Q R H. unfold compile_symbol, close, e_emit. cbn zeta. repeat est_; apply H; ps.
Qed.

Lemma compile_expr_st e : csteady (compile_expr ls e).
Proof.
  induction e as [b p|b p|z p|s p|v p|o l r p IHl IHr|o e p IHe|v p args IH] using expr_rect';
    intros reg st Q R H; cbn [compile_expr].
  1-4: unfold compile_literal; repeat est_; apply H; ps.
  - apply compile_symbol_st; assumption.
  - apply wp_bind, IHl; [exact R|]. intros st1 t1 R1. apply binary_st; assumption.
  - apply wp_bind, IHe; [exact R|]. intros st1 t1 R1. apply unary_st; assumption.
  - apply compile_call_st; try assumption. clear -IH. induction IH as [|[[[e|] s] q] args IH1 IH2]; constructor; auto.
Qed.

Lemma compile_as_st e reg t st (Q : _ -> Prop) : P (fst st) ->
  (forall st', P (fst st') -> Q st') -> wp (compile_expr_as_type ls e reg t st) Q.
Proof. apply as_type_st, compile_expr_st. Qed.

Lemma exprs_steady es : Forall oa_steady (map (fun e => Some (e, compile_expr ls e)) es).
Proof. induction es; constructor; auto. apply compile_expr_st. Qed.
Lemma closures_steady args : Forall a_steady (map (with_closure ls) args).
Proof. induction args as [|[[[e|] s] q] args IH]; constructor; auto; [apply compile_expr_st|exact I]. Qed.
End Expr.

Ltac est_ :=
  first [ wst
        | match goal with
          | |- wp (open_scope _ _) _ => apply open_st; intros ?
          | |- wp (alloc _ _ _) _ => apply alloc_st; [ps|intros]
          | |- wp (compile_expr_as_type _ _ _ _ _) _ => apply compile_as_st; [ps|intros]
          | |- wp (compile_expr _ _ _ _) _ => apply compile_expr_st; [ps|intros]
          | |- wp (of_syms _ _) _ => unfold of_syms
          end ]; cbn beta iota.

(** Statements that neither jump nor touch the lists of jumps to patch. *)
Lemma assignment_st v p e s (Q : _ -> Prop) : P (fst s) -> (forall s', P (fst s') -> Q s') ->
  wp (compile_assignment v p e s) Q.
Proof.
  intros R H. unfold compile_assignment, close, e_emit. cbn zeta. repeat est_; apply H; ps.
Qed.
Lemma case_relop_st p tr tt_ rr rt o d g (Q : _ -> Prop) : P g ->
  (forall g', P g' -> Q g') -> wp (compile_case_relop p tr tt_ rr rt o d g) Q.
Proof. intros R H. unfold compile_case_relop. destruct tt_, rt; repeat wst; apply H; ps. Qed.
Lemma case_compare_st l p tr tt_ e o a b c st (Q : _ -> Prop) : P (fst st) ->
  (forall st', P (fst st') -> Q st') -> wp (case_compare l p tr tt_ e o a b c st) Q.
Proof.
  intros R H. unfold case_compare, e_emit. cbn zeta. repeat est_.
  apply case_relop_st; [ps|]. intros g' R'. repeat est_. apply H. ps.
Qed.
Lemma case_guard_st l tr tt_ g st (Q : _ -> Prop) : P (fst st) ->
  (forall c p st', P (fst st') -> Q (c, p, st')) -> wp (compile_case_guard l tr tt_ g st) Q.
Proof.
  intros R H. unfold compile_case_guard, close, e_emit. destruct g; repeat est_.
  - apply case_compare_st; [ps|]. intros. repeat est_. apply H. ps.
  - apply case_compare_st; [ps|]. intros. repeat est_. apply case_compare_st; [ps|]. intros. repeat est_.
    apply H. ps.
Qed.
Lemma new_arg_st v p s (Q : _ -> Prop) : P (fst s) -> (forall s', P (fst s') -> Q s') ->
  wp (define_new_arg v p s) Q.
Proof. intros R H. unfold define_new_arg. cbn zeta. repeat est_; apply H; ps. Qed.
Lemma define_ref_st e s (Q : _ -> Prop) : P (fst s) -> (forall s', P (fst s') -> Q s') ->
  wp (define_ref e s) Q.
Proof. intros R H. unfold define_ref. repeat est_; auto. apply new_arg_st; assumption. Qed.
Lemma define_singular_st syns : forall args s (Q : _ -> Prop), P (fst s) ->
  (forall a s', P (fst s') -> Q (a, s')) -> wp (define_singular syns args s) Q.
Proof.
  induction syns as [|[] syns IH]; intros args s Q R H; cbn [define_singular]; repeat est_; auto.
  - apply define_ref_st; [exact R|]. intros s1 R1. apply IH; assumption.
Qed.
Lemma define_repeated_st args : forall s (Q : _ -> Prop), P (fst s) ->
  (forall s', P (fst s') -> Q s') -> wp (define_repeated args s) Q.
Proof.
  induction args as [|[[e sp1] p] args IH]; intros s Q R H; cbn [define_repeated]; repeat est_; auto.
  apply define_ref_st; [exact R|]. intros s1 R1. apply IH; assumption.
Qed.
Lemma define_new_args_st md p args s (Q : _ -> Prop) : P (fst s) ->
  (forall s', P (fst s') -> Q s') -> wp (define_new_args md p args s) Q.
Proof.
  intros R H. unfold define_new_args. repeat est_. apply define_singular_st; [exact R|]. intros a s1 R1.
  repeat est_; auto. apply define_repeated_st; assumption.
Qed.

(** Blocks of statements whose only effect on the lists is none. *)
Definition same_lists (x x' : sst) : Prop :=
  t_do (fst x') = t_do (fst x) /\ t_for (fst x') = t_for (fst x) /\ t_exits (fst x') = t_exits (fst x) /\
  t_defined (fst x') = t_defined (fst x) /\ t_current (fst x') = t_current (fst x).
Definition bsteady (body : block) : Prop := forall x (Q : _ -> Prop), P (s_gen x) ->
  (forall x', same_lists x x' -> P (s_gen x') -> Q x') -> wp (body x) Q.
Ltac lists := repeat split.

Lemma s_assignment_st v p e : bsteady (s_assignment v p e).
Proof.
  intros x Q R H. unfold s_assignment. apply wp_bind, assignment_st; [exact R|]. intros [g l] R'. apply H; [lists|].
  exact R'.
Qed.
Lemma guard_st e x (Q : _ -> Prop) : P (s_gen x) ->
  (forall r x', same_lists x x' -> P (s_gen x') -> Q (r, x')) -> wp (guard_expr e x) Q.
Proof.
  intros R H. unfold guard_expr, freeze. cbn zeta. repeat est_. apply H; [lists|]. unfold unfreeze, close, s_gen. cbn [fst t_gen set_gen]. ps.
Qed.
Lemma result_st n k p : bsteady (define_result n k p).
Proof.
  intros x Q R H. unfold define_result. repeat est_; apply H; try (lists; fail); unfold s_gen in *; cbn [fst t_gen set_gen]; ps.
Qed.
Lemma array_assignment_st v p subs e : bsteady (compile_array_assignment v p subs e).
Proof.
  intros x Q R H. unfold compile_array_assignment, freeze, unfreeze, close, e_emit. cbn zeta. repeat est_.
  apply integer_exprs_st; [apply exprs_steady|ps|]. intros [f|] s9 st9 R9; repeat est_.
  apply H; [lists|]. unfold s_gen. cbn [fst t_gen set_gen]. ps.
Qed.
Lemma call_stmt_st v p args : bsteady (compile_call_stmt v p args).
Proof.
  intros x Q R H. unfold compile_call_stmt. cbn zeta. repeat est_.
  apply define_new_args_st; [exact R|]. intros [g l] R1. repeat est_.
  apply compile_args_st; [apply closures_steady|exact R1|]. intros st r lc R2. unfold unfreeze, s_gen. repeat est_.
  all: cbn [fst t_gen set_gen]; ps.
  all: try (apply H; [lists|]; unfold s_gen; cbn [fst t_gen set_gen]; ps).
Qed.
Lemma dim_st n p b t : bsteady (compile_dim n p b t).
Proof.
  intros x Q R H. unfold compile_dim. apply wp_bind.
  destruct (dim_register _ _ _ _ _) as [[r l]| |] eqn:E; [|exact I|exact I]. cbn [wp].
  apply H; [lists|]. unfold s_gen in *. cbn [fst t_gen set_gen]. ps.
Qed.
Lemma dim_array_st n p b dims t : bsteady (compile_dim_array n p b dims t).
Proof.
  intros x Q R H. unfold compile_dim_array, freeze, unfreeze, close, e_emit. cbn zeta. apply wp_bind.
  destruct (dim_register _ _ _ _ _) as [[r l]| |] eqn:E; [|exact I|exact I]. cbn [wp]. repeat est_.
  apply integer_exprs_st; [apply exprs_steady|exact R|]. intros [f|] s9 st9 R9; repeat est_.
  apply H; [lists|]. unfold s_gen. cbn [fst t_gen set_gen]. ps.
Qed.
Lemma end_st c p : bsteady (compile_end c p).
Proof.
  intros x Q R H. unfold compile_end, freeze, unfreeze, close, e_emit. cbn zeta. repeat est_;
  (apply H; [lists|]; unfold s_gen; cbn [fst t_gen set_gen]; ps).
Qed.
End Steady.

(** The code that prepares globals. *)
Lemma globals_steady P : steady P -> forall up defs k, compiler_new up defs = COk k -> P codegen_new -> P (t_gen (k_ctx k)).
Proof.
  intros K up defs k H N0. unfold compiler_new, prepare_globals in H. apply bind_ok in H as ([g gs] & H & KK).
  apply COk_inj in KK. subst k. apply bind_ok in H as ([arrays [g1 gs1]] & E & H). cbn beta iota in H.
  apply bind_ok in H as (g2 & A & H). apply COk_inj, pair_inj in H as [<- <-]. cbn [k_ctx t_gen set_gen].
  assert (R : forall defs arrays s arrays' s', register_globals defs arrays s = COk (arrays', s') -> P (fst s) -> P (fst s')).
  { clear -K. induction defs as [|[n k] defs IH]; intros arrays s arrays' s' H R; cbn [register_globals] in H.
    - apply COk_inj, pair_inj in H as [_ <-]. exact R.
    - apply bind_ok in H as (u0 & _ & H). destruct (put_global _ _ _) as [[gs [r|]]|] eqn:PG; try discriminate H.
      destruct k as [t init|t dims].
      + apply bind_ok in H as (g & E & H). apply (IH _ _ _ _ H). cbn [fst]. destruct init as [d|].
        * destruct (etype_eqb _ _); [|discriminate E]. eapply wp_ok; [exact E|]. apply (emit_value_st _ K); auto.
        * apply COk_inj in E. subst g. apply (st_emit P K); [apply default_quiet|exact R].
      + apply (IH _ _ _ _ H). exact R. }
  assert (D : forall dims i g g', load_dims dims i g = COk g' -> P g -> P g').
  { clear -K. induction dims as [|d dims IH]; intros i g g' H X; cbn [load_dims] in H.
    - apply COk_inj in H. subst. exact X.
    - destruct (_ <? _)%N; [|discriminate H]. destruct (register_local i); [|discriminate H].
      apply (IH _ _ _ H), (st_emit P K); [exact I|exact X]. }
  assert (AL : forall l g g', alloc_globals l g = COk g' -> P g -> P g').
  { clear -K D. induction l as [|[r [t dims]] l IH]; intros g g' H X; cbn [alloc_globals] in H.
    - apply COk_inj in H. subst. exact X.
    - apply bind_ok in H as (g1 & E & H). destruct (packed_new _ _) as [p|]; [|discriminate H]. apply (IH _ _ H).
      apply (st_emit P K); [exact I|]. eapply D; eassumption. }
  apply (st_emit P K); [exact I|]. eapply AL; [exact A|]. exact (R _ _ _ _ _ E N0).
Qed.

(** Fixups are added for placeholders. *)
Definition filled (g0 g : codegen) : Prop :=
  next_pc g0 <= next_pc g /\
  exists new, g_fixups g = new ++ g_fixups g0 /\ NoDup (map fst new) /\
    forall a, In a (map fst new) -> next_pc g0 <= a /\ nth_error (g_code g) a = Some INop.
Lemma filled_refl g : filled g g.
Proof. split; [apply le_n|]. exists []. split; [reflexivity|]. split; [constructor|intros a []]. Qed.
Lemma filled_lt g0 g a : filled g0 g -> forall new, g_fixups g = new ++ g_fixups g0 -> In a (map fst new) -> a < next_pc g.
Proof.
  intros (_ & new & E & _ & C) new' E' A. assert (new' = new) as -> by (apply (app_inv_tail (g_fixups g0)); congruence).
  destruct (C a A) as [_ N1]. unfold next_pc. apply nth_error_Some. congruence.
Qed.
Lemma filled_code g0 g g' : filled g0 g -> next_pc g <= next_pc g' -> g_fixups g' = g_fixups g ->
  (forall a, a < next_pc g -> nth_error (g_code g') a = nth_error (g_code g) a) -> filled g0 g'.
Proof.
  intros F L E K. pose proof (fun a => filled_lt g0 g a F) as LT. destruct F as (A & new & B & C & D).
  split; [lia|]. exists new. split; [congruence|]. split; [exact C|].
  intros a J. destruct (D a J) as [D1 D2]. split; [exact D1|]. rewrite K; [exact D2|]. eapply LT; eassumption.
Qed.
Lemma filled_add g0 g f pos : filled g0 g -> filled g0 (add_fixup (next_pc g) f (emit INop pos g)).
Proof.
  intros F. pose proof (fun a => filled_lt g0 g a F) as LT. destruct F as (A & new & B & C & D).
  assert (PC : next_pc (add_fixup (next_pc g) f (emit INop pos g)) = S (next_pc g)).
  { unfold next_pc, add_fixup, emit, with_code. cbn [g_code]. rewrite app_length. cbn [length]. lia. }
  split; [lia|]. exists ((next_pc g, f) :: new). split; [cbn; rewrite B; reflexivity|]. split.
  - cbn [map fst]. constructor; [|exact C]. intros J. specialize (LT _ _ B J). lia.
  - cbn [map fst]. cbn [add_fixup emit with_code g_code]. intros a [<-|J].
    + split; [exact A|]. unfold next_pc. rewrite nth_error_app2, Nat.sub_diag by lia. reflexivity.
    + destruct (D a J) as [D1 D2]. split; [exact D1|]. rewrite nth_error_app1; [exact D2|]. apply (LT _ _ B J).
Qed.
Lemma filled_steady g0 : steady (filled g0).
Proof.
  split.
  - intros i pos g _ F. eapply filled_code; [exact F| |reflexivity|].
    + unfold next_pc, emit, with_code. cbn [g_code]. rewrite app_length. lia.
    + intros a L. cbn [emit with_code g_code]. apply nth_error_app1. exact L.
  - intros g m F. exact F.
  - intros g m F. exact F.
  - intros r k pos g F. apply filled_add, F.
  - intros r k pos l g F. exact (filled_add _ _ (FxCall r k) pos F).
  - intros a l g F. exact F.
Qed.
Lemma filled_patch g0 g a i : filled g0 g -> ~ In a (map fst (g_fixups g)) -> filled g0 (patch a i g).
Proof.
  intros (A & new & B & C & D) N1. split; [unfold next_pc, patch, with_code; cbn [g_code]; rewrite upd_length; exact A|].
  exists new. split; [exact B|]. split; [exact C|]. intros b J. destruct (D b J) as [D1 D2]. split; [exact D1|].
  cbn [patch with_code g_code]. rewrite upd_nth_other; [exact D2|]. intros <-. apply N1. rewrite B, map_app, in_app_iff. auto.
Qed.

(** Placeholders without fixups never get one. *)
Definition avoids (l : list nat) (g : codegen) : Prop :=
  forall a, In a l -> a < next_pc g /\ ~ In a (map fst (g_fixups g)).
Lemma avoids_emit l i pos g : avoids l g -> avoids l (emit i pos g).
Proof.
  intros H a J. destruct (H a J) as [A B]. split; [|exact B].
  unfold next_pc, emit, with_code. cbn [g_code]. rewrite app_length. unfold next_pc in A. lia.
Qed.
Lemma avoids_add l f pos g : avoids l g -> avoids l (add_fixup (next_pc g) f (emit INop pos g)).
Proof.
  intros H a J. destruct (avoids_emit l INop pos g H a J) as [A B]. split; [exact A|]. cbn [add_fixup g_fixups map fst].
  intros [E|E]; [|exact (B E)]. destruct (H a J). lia.
Qed.
Lemma avoids_steady l : steady (avoids l).
Proof.
  split.
  - intros i pos g _. apply avoids_emit.
  - intros g m H. exact H.
  - intros g m H. exact H.
  - intros r k pos g. apply avoids_add.
  - intros r k pos l0 g H. exact (avoids_add l (FxCall r k) pos g H).
  - intros a l0 g H. exact H.
Qed.
Lemma avoids_patch l a i g : avoids l g -> avoids l (patch a i g).
Proof.
  intros H b J. destruct (H b J) as [A B]. split; [|exact B]. unfold next_pc, patch, with_code. cbn [g_code].
  rewrite upd_length. exact A.
Qed.
Lemma avoids_here l f i pos g : filled f g -> avoids l g -> (forall a, In a (map fst (g_fixups f)) -> a < next_pc f) ->
  avoids (next_pc g :: l) (emit i pos g).
Proof.
  intros F H O a [<-|J]; [|exact (avoids_emit l i pos g H a J)]. split.
  - unfold next_pc, emit, with_code. cbn [g_code]. rewrite app_length. cbn [length]. lia.
  - cbn [emit with_code g_fixups]. intros J. pose proof (fun z => filled_lt f g z F) as LT. destruct F as (A & new & B & _).
    assert (J' := J). rewrite B, map_app, in_app_iff in J'. destruct J' as [J'|J'].
    + specialize (LT _ _ B J'). lia.
    + specialize (O _ J'). lia.
Qed.
Lemma steady_and P Q : steady P -> steady Q -> steady (fun g => P g /\ Q g).
Proof. intros [] []. split; intuition auto. Qed.
