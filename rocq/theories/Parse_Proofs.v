(** Lemmas about the expression parser. *)
From Coq Require Import String.
From Verif Require Import Base Bytecode_Model Vm_Model Ast_Model Lex_Model Parse_Model Parse_Spec.
Local Open Scope nat_scope.
Local Open Scope list_scope.

Lemma Ok_inj : forall E A (a b : A), Ok (E:=E) a = Ok b -> a = b.
Proof. intros E A a b H. congruence. Qed.

Definition fuelled {A} (r : pres A) : Prop := r <> Err PFuel.

Lemma apply_op_fuelled : forall o e, fuelled (apply_op o e).
Proof.
  intros [[|b|o] p] e; unfold apply_op, bad; cbn [fst snd].
  - discriminate.
  - destruct e as [|a [|b' r]]; discriminate.
  - destruct e; discriminate.
Qed.

Lemma reduce_fuelled : forall k ops e, fuelled (reduce k e ops).
Proof.
  induction ops as [|o r IH]; intros e; cbn [reduce]; [discriminate|].
  destruct (is_paren o || _); [discriminate|].
  pose proof (apply_op_fuelled o e) as X. destruct (apply_op o e); [apply IH|].
  intros H. apply X. congruence.
Qed.

Lemma close_paren_fuelled : forall ops e, fuelled (close_paren e ops).
Proof.
  induction ops as [|o r IH]; intros e; cbn [close_paren]; [discriminate|].
  pose proof (apply_op_fuelled o e) as X. destruct (apply_op o e).
  - destruct (is_paren o); [discriminate|apply IH].
  - intros H. apply X. congruence.
Qed.

Lemma finish_fuelled : forall ops e, fuelled (finish e ops).
Proof.
  induction ops as [|o r IH]; intros e; cbn [finish]; [discriminate|].
  destruct (is_paren o); [discriminate|].
  pose proof (apply_op_fuelled o e) as X. destruct (apply_op o e); [apply IH|].
  intros H. apply X. congruence.
Qed.

Section Eof.
Variable eof : linecol.
Local Notation expr_loop := (expr_loop eof).
Local Notation call_args := (call_args eof).

(** The step of the loop, as a function of what it calls. *)
Definition loop_step (L : list expr -> list opspan -> bool -> toks -> pres (option expr * toks))
    (C : bool -> list argspan -> toks -> pres (list argspan * toks))
    (exprs : list expr) (ops : list opspan) (need : bool) (ts : toks) : pres (option expr * toks) :=
  let '(tok, pos) := peek eof ts in
  if ends_expr tok ops then
    match finish exprs ops with
    | Ok e => Ok (e, ts)
    | Err x => Err x
    end
  else
    let ts' := consume ts in
    match operand_of (tok, pos) with
    | Some e =>
        if need then L (e :: exprs) ops false ts'
        else bad pos "Unexpected value in expression"
    | None =>
        match tok with
        | TkLeftParen =>
            match exprs, need with
            | ESymbol v vpos :: r, false =>
                match C true [] ts' with
                | Ok (args, ts'') => L (ECall v vpos args :: r) ops false ts''
                | Err x => Err x
                end
            | _, false => Err (PBad pos (PUnexpectedInExpr tok))
            | _, true => L exprs ((OpParen, pos) :: ops) true ts'
            end
        | TkRightParen =>
            match close_paren exprs ops with
            | Ok (exprs', ops') => L exprs' ops' false ts'
            | Err x => Err x
            end
        | TkNot => L exprs ((OpUnary UNot, pos) :: ops) true ts'
        | TkMinus =>
            if need then L exprs ((OpUnary UNegate, pos) :: ops) true ts'
            else
              match reduce (op_priority (OpBinary BSubtract)) exprs ops with
              | Ok (exprs', ops') => L exprs' ((OpBinary BSubtract, pos) :: ops') true ts'
              | Err x => Err x
              end
        | TkBad m => Err (PBad pos (PLexer m))
        | _ =>
            match binop_of tok with
            | Some b =>
                match reduce (op_priority (OpBinary b)) exprs ops with
                | Ok (exprs', ops') => L exprs' ((OpBinary b, pos) :: ops') true ts'
                | Err x => Err x
                end
            | None => bad pos "Unexpected keyword in expression"
            end
        end
    end.

Definition args_step (L : list expr -> list opspan -> bool -> toks -> pres (option expr * toks))
    (C : bool -> list argspan -> toks -> pres (list argspan * toks))
    (is_first : bool) (spans : list argspan) (ts : toks) : pres (list argspan * toks) :=
  match L [] [] true ts with
  | Err x => Err x
  | Ok (prev, ts1) =>
      let '(tok, pos) := peek eof ts1 in
      match tok, prev with
      | TkRightParen, Some e => Ok (spans ++ [(Some e, SepEnd, pos)], consume ts1)
      | TkRightParen, None =>
          if is_first then Ok (spans, consume ts1) else bad pos "Missing expression"
      | TkComma, Some e => C false (spans ++ [(Some e, SepLong, pos)]) (consume ts1)
      | TkComma, None => bad pos "Missing expression"
      | _, _ => Err (PBad pos (PUnexpected tok))
      end
  end.

Lemma expr_loop_S : forall n exprs ops need ts,
  expr_loop (S n) exprs ops need ts = loop_step (expr_loop n) (call_args n) exprs ops need ts.
Proof. reflexivity. Qed.
Lemma call_args_S : forall n f spans ts,
  call_args (S n) f spans ts = args_step (expr_loop n) (call_args n) f spans ts.
Proof. reflexivity. Qed.

(** A computation whose result does not change with more fuel. *)
Definition le_res {A} (a b : pres A) : Prop := a = Err PFuel \/ a = b.
Lemma le_refl : forall A (a : pres A), le_res a a. Proof. right. reflexivity. Qed.

Lemma loop_step_mono : forall L L' C C' exprs ops need ts,
  (forall a b c d, le_res (L a b c d) (L' a b c d)) ->
  (forall a b c, le_res (C a b c) (C' a b c)) ->
  le_res (loop_step L C exprs ops need ts) (loop_step L' C' exprs ops need ts).
Proof.
  intros L L' C C' exprs ops need ts HL HC. unfold loop_step.
  destruct (peek eof ts) as [tok pos].
  destruct (ends_expr tok ops); [apply le_refl|]. cbv zeta.
  destruct (operand_of (tok, pos)) as [e|]; [destruct need; [apply HL|apply le_refl]|].
  destruct tok; try apply le_refl; cbn [binop_of];
    try (destruct (reduce _ exprs ops) as [[? ?]|?]; [apply HL|apply le_refl]).
  - destruct exprs as [|[] r]; destruct need; try apply le_refl; try apply HL.
    destruct (HC true [] (consume ts)) as [X|X]; rewrite X; [left; reflexivity|].
    destruct (C' true [] (consume ts)) as [[? ?]|?]; [apply HL|apply le_refl].
  - destruct (close_paren exprs ops) as [[? ?]|?]; [apply HL|apply le_refl].
  - destruct need; [apply HL|]. destruct (reduce _ exprs ops) as [[? ?]|?]; [apply HL|apply le_refl].
  - apply HL.
Qed.

Lemma args_step_mono : forall L L' C C' f spans ts,
  (forall a b c d, le_res (L a b c d) (L' a b c d)) ->
  (forall a b c, le_res (C a b c) (C' a b c)) ->
  le_res (args_step L C f spans ts) (args_step L' C' f spans ts).
Proof.
  intros L L' C C' f spans ts HL HC. unfold args_step.
  destruct (HL [] [] true ts) as [X|X]; rewrite X; [left; reflexivity|].
  destruct (L' [] [] true ts) as [[prev ts1]|?]; [|apply le_refl].
  destruct (peek eof ts1) as [tok pos]. destruct tok; try apply le_refl.
  destruct prev; [apply HC|apply le_refl].
Qed.

Lemma more_fuel : forall n,
  (forall exprs ops need ts, le_res (expr_loop n exprs ops need ts) (expr_loop (S n) exprs ops need ts)) /\
  (forall f spans ts, le_res (call_args n f spans ts) (call_args (S n) f spans ts)).
Proof.
  induction n as [|n [IH1 IH2]].
  - split; left; reflexivity.
  - split; intros; [rewrite (expr_loop_S n), (expr_loop_S (S n)); apply loop_step_mono|
      rewrite (call_args_S n), (call_args_S (S n)); apply args_step_mono]; auto.
Qed.

Lemma le_trans_res : forall A (a b c : pres A), le_res a b -> le_res b c -> le_res a c.
Proof. intros A a b c [->| ->] [->| ->]; try (left; reflexivity); right; reflexivity. Qed.

Lemma loop_mono : forall n m exprs ops need ts, n <= m ->
  le_res (expr_loop n exprs ops need ts) (expr_loop m exprs ops need ts).
Proof.
  intros n m exprs ops need ts H. induction H; [apply le_refl|].
  eapply le_trans_res; [exact IHle|]. apply more_fuel.
Qed.
Lemma args_mono : forall n m f spans ts, n <= m ->
  le_res (call_args n f spans ts) (call_args m f spans ts).
Proof.
  intros n m f spans ts H. induction H; [apply le_refl|].
  eapply le_trans_res; [exact IHle|]. apply more_fuel.
Qed.

(** What is left of the tokens is never longer. *)
Lemma consume_le : forall ts, length (consume ts) <= length ts.
Proof. destruct ts; cbn; lia. Qed.

Lemma loop_left : forall n,
  (forall exprs ops need ts e ts', expr_loop n exprs ops need ts = Ok (e, ts') -> length ts' <= length ts) /\
  (forall f spans ts a ts', call_args n f spans ts = Ok (a, ts') -> length ts' <= length ts).
Proof.
  induction n as [|n [IH1 IH2]]; [split; intros; discriminate|].
  split.
  - intros exprs ops need ts e ts' H. rewrite expr_loop_S in H. unfold loop_step in H.
    destruct (peek eof ts) as [tok pos].
    destruct (ends_expr tok ops).
    { destruct (finish exprs ops); [|discriminate H]. apply Ok_inj in H.
      apply pair_equal_spec in H. destruct H as [_ <-]. lia. }
    cbv zeta in H. pose proof (consume_le ts) as CL.
    destruct (operand_of (tok, pos)) as [x|]; [destruct need; [apply IH1 in H; lia|discriminate H]|].
    destruct tok; try discriminate H; cbn [binop_of] in H;
      try (destruct (reduce _ exprs ops) as [[? ?]|?]; [apply IH1 in H; lia|discriminate H]).
    + destruct exprs as [|[] r]; destruct need; try discriminate H; try (apply IH1 in H; lia).
      destruct (call_args n true [] (consume ts)) as [[a t1]|?] eqn:E; [|discriminate H].
      apply IH2 in E. apply IH1 in H. lia.
    + destruct (close_paren exprs ops) as [[? ?]|?]; [apply IH1 in H; lia|discriminate H].
    + destruct need; [apply IH1 in H; lia|].
      destruct (reduce _ exprs ops) as [[? ?]|?]; [apply IH1 in H; lia|discriminate H].
    + apply IH1 in H. lia.
  - intros f spans ts a ts' H. rewrite call_args_S in H. unfold args_step in H.
    destruct (expr_loop n [] [] true ts) as [[prev ts1]|?] eqn:E; [|discriminate H].
    apply IH1 in E. pose proof (consume_le ts1) as CL.
    assert (X : forall y, @Ok parse_error _ (y, consume ts1) = Ok (a, ts') -> length ts' <= length ts).
    { intros y Z. apply Ok_inj, pair_equal_spec in Z. destruct Z as [_ <-]. lia. }
    destruct (peek eof ts1) as [tok pos]. destruct tok; try discriminate H.
    + destruct prev; [|discriminate H]. apply IH2 in H. lia.
    + destruct prev; [eapply X; exact H|]. destruct f; [eapply X; exact H|discriminate H].
Qed.

(** The bound is never met. *)
Lemma enough_fuel : forall n,
  (forall exprs ops need ts, 2 * length ts + 1 <= n -> fuelled (expr_loop n exprs ops need ts)) /\
  (forall f spans ts, 2 * length ts + 2 <= n -> fuelled (call_args n f spans ts)).
Proof.
  induction n as [|n [IH1 IH2]]; [split; intros; lia|].
  split.
  - intros exprs ops need ts H. rewrite expr_loop_S. unfold loop_step.
    destruct ts as [|[tok pos] ts].
    + cbn [peek ends_expr]. pose proof (finish_fuelled ops exprs) as F.
      destruct (finish exprs ops); [discriminate|]. intros X. apply F. congruence.
    + cbn [peek consume tl length] in *.
      assert (FIN : forall A (x : pres A) B (k : A -> pres B), fuelled x -> (forall a, fuelled (k a)) ->
        fuelled (match x with Ok a => k a | Err e => Err e end)).
      { intros A x B k F K. destruct x; [apply K|]. intros X. apply F. congruence. }
      destruct (ends_expr tok ops).
      { pose proof (finish_fuelled ops exprs) as F.
        destruct (finish exprs ops); [discriminate|]. intros X. apply F. congruence. }
      assert (L : forall a b c, fuelled (expr_loop n a b c ts)) by (intros; apply IH1; lia).
      assert (R : forall k, fuelled (match reduce (op_priority (OpBinary k)) exprs ops with
          | Ok (exprs', ops') => expr_loop n exprs' ((OpBinary k, pos) :: ops') true ts
          | Err x => Err x end)).
      { intros k. apply FIN; [apply reduce_fuelled|]. intros [? ?]. apply L. }
      destruct (operand_of (tok, pos)) as [x|]; [destruct need; [apply L|discriminate]|].
      destruct tok; try discriminate; cbn [binop_of]; try apply R; try apply L.
      * destruct exprs as [|[] r]; destruct need; try discriminate; try apply L.
        destruct (call_args n true [] ts) as [[a t1]|x] eqn:E.
        -- apply IH1. pose proof (proj2 (loop_left n) _ _ _ _ _ E). lia.
        -- intros X. apply (IH2 true [] ts); [lia|congruence].
      * apply FIN; [apply close_paren_fuelled|]. intros [? ?]. apply L.
      * destruct need; [apply L|apply R].
  - intros f spans ts H. rewrite call_args_S. unfold args_step.
    destruct (expr_loop n [] [] true ts) as [[prev ts1]|x] eqn:E.
    + pose proof (proj1 (loop_left n) _ _ _ _ _ _ E) as LE.
      destruct ts1 as [|[tok pos] ts1]; cbn [peek consume tl length] in *; [discriminate|].
      destruct tok; try discriminate.
      * destruct prev; [|discriminate]. apply IH2. lia.
      * destruct prev; [discriminate|]. destruct f; discriminate.
    + intros X. apply (IH1 [] [] true ts); [lia|congruence].
Qed.

Lemma loop_fuel : forall n exprs ops need ts, fuel ts <= n ->
  expr_loop n exprs ops need ts = expr_loop (fuel ts) exprs ops need ts.
Proof.
  intros n exprs ops need ts H. destruct (loop_mono (fuel ts) n exprs ops need ts H) as [X|X]; [|auto].
  exfalso. apply (proj1 (enough_fuel (fuel ts)) exprs ops need ts); [unfold fuel; lia|exact X].
Qed.

Lemma loop_any_fuel : forall n exprs ops need ts x, expr_loop n exprs ops need ts = Ok x ->
  expr_loop (fuel ts) exprs ops need ts = Ok x.
Proof.
  intros n exprs ops need ts x H.
  rewrite <- (loop_fuel (Nat.max n (fuel ts))) by lia.
  destruct (loop_mono n (Nat.max n (fuel ts)) exprs ops need ts ltac:(lia)) as [X|X]; congruence.
Qed.

(** * The loop on a writing *)

(** [steps a b]: whatever [b] leads to, [a] leads to. *)
Definition st := (list expr * list opspan * bool * toks)%type.
Definition run (n : nat) (s : st) := let '(a, b, c, d) := s in expr_loop n a b c d.
Definition steps (a b : st) : Prop := forall n x, run n b = Ok x -> exists m, run m a = Ok x.
Lemma steps_refl : forall a, steps a a.
Proof. intros a n x H. exists n. exact H. Qed.
Lemma steps_trans : forall a b c, steps a b -> steps b c -> steps a c.
Proof. intros a b c H K n x E. destruct (K n x E) as [m F]. exact (H m x F). Qed.
Lemma step1 : forall a b, (forall n, run (S n) a = run n b) -> steps a b.
Proof. intros a b H n x E. exists (S n). rewrite H. exact E. Qed.

(** The operators that are pending and the operands that they leave. *)
Fixpoint folds (pend : list opspan) (es : list expr) (es' : list expr) : Prop :=
  match pend with
  | [] => es = es'
  | o :: r => is_paren o = false /\ exists es1, apply_op o es = Ok es1 /\ folds r es1 es'
  end.
Definition tight (k : nat) (pend : list opspan) : Prop := Forall (fun o => k <= op_priority (fst o)) pend.
(** The context does not take part in what binds tighter than [k]. *)
Definition looser (k : nat) (ops : list opspan) : Prop :=
  match ops with [] => True | o :: _ => is_paren o = true \/ op_priority (fst o) < k end.

Lemma folds_app : forall a b es es', folds (a ++ b) es es' <-> exists m, folds a es m /\ folds b m es'.
Proof.
  induction a as [|o r IH]; intros b es es'; cbn [folds app].
  - split; [intros H; exists es; auto|]. intros (m & -> & H). exact H.
  - split.
    + intros (P & es1 & A & F). apply IH in F. destruct F as (m & F1 & F2).
      exists m. split; [|exact F2]. split; [exact P|]. exists es1. auto.
    + intros (m & (P & es1 & A & F) & F2). split; [exact P|]. exists es1. split; [exact A|].
      apply IH. exists m. auto.
Qed.

Lemma reduce_folds : forall k pend es es' ops, folds pend es es' -> tight k pend -> looser k ops ->
  reduce k es (pend ++ ops) = Ok (es', ops).
Proof.
  induction pend as [|o r IH]; intros es es' ops F T L; cbn [folds app] in *.
  - subst es'. destruct ops as [|o r]; [reflexivity|]. cbn [reduce looser] in *.
    destruct L as [->|L]; [reflexivity|]. rewrite (proj2 (Nat.ltb_lt _ _) L), orb_true_r. reflexivity.
  - destruct F as (P & es1 & A & F). inversion T as [|? ? T1 T2]; subst.
    cbn [reduce]. rewrite P, (proj2 (Nat.ltb_ge _ _) T1). cbn [orb]. rewrite A. apply IH; auto.
Qed.

Lemma close_folds : forall pend es es' p ops, folds pend es es' ->
  close_paren es (pend ++ (OpParen, p) :: ops) = Ok (es', ops).
Proof.
  induction pend as [|o r IH]; intros es es' p ops F; cbn [folds app] in *.
  - subst es'. reflexivity.
  - destruct F as (P & es1 & A & F). cbn [close_paren]. rewrite A, P. apply IH. exact F.
Qed.

Lemma finish_folds : forall pend es e r, folds pend es (e :: r) -> finish es pend = Ok (Some e).
Proof.
  induction pend as [|o p IH]; intros es e r F; cbn [folds] in *.
  - subst es. reflexivity.
  - destruct F as (P & es1 & A & F). cbn [finish]. rewrite P, A. eapply IH. exact F.
Qed.

Lemma folds_no_paren : forall pend es es', folds pend es es' -> existsb is_paren pend = false.
Proof.
  induction pend as [|o r IH]; intros es es' F; [reflexivity|]. cbn [folds existsb] in *.
  destruct F as (P & es1 & _ & F). rewrite P. cbn [orb]. eapply IH. exact F.
Qed.

Lemma level_priority : forall o, op_priority (OpBinary o) = level o.
Proof. destruct o; reflexivity. Qed.
Lemma level_lt : forall o, level o < closed.
Proof. destruct o; unfold closed; cbn; lia. Qed.

(** A binary operator after an operand. *)
Lemma binary_step : forall o p es pend es' ops rest, folds pend es es' ->
  tight (level o) pend -> looser (level o) ops ->
  steps (es, pend ++ ops, false, (binop_token o, p) :: rest) (es', (OpBinary o, p) :: ops, true, rest).
Proof.
  intros o p es pend es' ops rest F T L. apply step1. intros n. unfold run.
  rewrite expr_loop_S. unfold loop_step. cbn [peek consume tl].
  pose proof (reduce_folds (level o) pend es es' ops F T L) as R. rewrite <- level_priority in R.
  destruct o; cbn [binop_token ends_expr operand_of fst binop_of]; cbv iota; rewrite R; reflexivity.
Qed.

Lemma unary_step : forall o p es ops rest,
  steps (es, ops, true, (unop_token o, p) :: rest) (es, (OpUnary o, p) :: ops, true, rest).
Proof. intros o p es ops rest. apply step1. intros n. destruct o; reflexivity. Qed.

Lemma operand_step : forall t p e es ops rest, operand_of (t, p) = Some e ->
  steps (es, ops, true, (t, p) :: rest) (e :: es, ops, false, rest).
Proof.
  intros t p e es ops rest H. apply step1. intros n. unfold run. rewrite expr_loop_S.
  unfold loop_step. cbn [peek consume tl]. rewrite H.
  destruct t; try discriminate H; reflexivity.
Qed.

Lemma open_step : forall p es ops rest,
  steps (es, ops, true, (TkLeftParen, p) :: rest) (es, (OpParen, p) :: ops, true, rest).
Proof. intros p es ops rest. apply step1. intros n. destruct es as [|[]]; reflexivity. Qed.

Lemma close_step : forall q p es pend es' ops rest, folds pend es es' ->
  steps (es, pend ++ (OpParen, p) :: ops, false, (TkRightParen, q) :: rest) (es', ops, false, rest).
Proof.
  intros q p es pend es' ops rest F. apply step1. intros n. unfold run. rewrite expr_loop_S.
  unfold loop_step. cbn [peek consume tl ends_expr].
  rewrite existsb_app. cbn [existsb is_paren fst]. rewrite orb_true_r. cbn [negb operand_of fst].
  rewrite (close_folds pend es es' p ops F). reflexivity.
Qed.

(** The end of an expression. *)
Lemma end_run : forall es pend e r rest, folds pend es (e :: r) -> at_end rest ->
  run 1 (es, pend, false, rest) = Ok (Some e, rest).
Proof.
  intros es pend e r rest F A. unfold run. rewrite expr_loop_S. unfold loop_step.
  assert (X : ends_expr (fst (peek eof rest)) pend = true).
  { destruct rest as [|[t p] rest]; [reflexivity|]. cbn [at_end peek fst] in *.
    unfold ends in A. cbn [In] in A.
    pose proof (folds_no_paren _ _ _ F) as NP.
    repeat (destruct A as [<-|A]; [cbn [ends_expr]; try rewrite NP; reflexivity|]). destruct A. }
  destruct (peek eof rest) as [t p]. cbn [fst] in X. rewrite X, (finish_folds _ _ _ _ F). reflexivity.
Qed.

Lemma tight_le : forall k k' pend, tight k pend -> k' <= k -> tight k' pend.
Proof. intros k k' pend H L. eapply Forall_impl; [|exact H]. cbv beta. intros; lia. Qed.
Lemma looser_le : forall k k' ops, looser k ops -> k <= k' -> looser k' ops.
Proof. intros k k' [|o r] H L; [exact I|]. cbn [looser] in *. destruct H; [left; auto|right; lia]. Qed.

(** The arguments of a call after some. *)
Definition args_ok (args : list argspan) (w : list tokspan) : Prop :=
  forall f spans rest, (f = true -> spans = []) ->
    exists n, call_args n f spans (w ++ rest) = Ok (spans ++ args, rest).

Lemma expr_run : forall e w h t,
  (forall es ops rest, looser h ops -> exists pend es', steps (es, ops, true, w ++ rest) (es', pend ++ ops, false, rest) /\
     folds pend es' (e :: es) /\ tight t pend) ->
  forall rest, at_end rest -> exists n, expr_loop n [] [] true (w ++ rest) = Ok (Some e, rest).
Proof.
  intros e w h t H rest A. destruct (H [] [] rest I) as (pend & es' & S1 & F & _).
  rewrite app_nil_r in S1. destruct (S1 1 _ (end_run _ _ _ _ rest F A)) as [m E].
  exists m. exact E.
Qed.

Lemma args_end : forall n f spans ts e q rest,
  expr_loop n [] [] true ts = Ok (Some e, (TkRightParen, q) :: rest) ->
  call_args (S n) f spans ts = Ok (spans ++ [(Some e, SepEnd, q)], rest).
Proof. intros n f spans ts e q rest E. rewrite call_args_S. unfold args_step. rewrite E. reflexivity. Qed.

Lemma args_more : forall n f spans ts e q rest,
  expr_loop n [] [] true ts = Ok (Some e, (TkComma, q) :: rest) ->
  call_args (S n) f spans ts = call_args n false (spans ++ [(Some e, SepLong, q)]) rest.
Proof. intros n f spans ts e q rest E. rewrite call_args_S. unfold args_step. rewrite E. reflexivity. Qed.

Lemma writes_run :
  (forall e w h t, writes e w h t -> forall es ops rest, looser h ops ->
     exists pend es', steps (es, ops, true, w ++ rest) (es', pend ++ ops, false, rest) /\
       folds pend es' (e :: es) /\ tight t pend) /\
  (forall args w, writes_args args w -> forall rest, exists n, call_args n true [] (w ++ rest) = Ok (args, rest)) /\
  (forall args w, writes_some args w -> forall f spans rest,
     exists n, call_args n f spans (w ++ rest) = Ok (spans ++ args, rest)).
Proof.
  apply writes_mutind.
  1-5: intros; exists []; eexists; split; [apply operand_step; reflexivity|]; split; [reflexivity|constructor].
  - (* parens *)
    intros e w h t p q W IH es ops rest L.
    destruct (IH es ((OpParen, p) :: ops) ((TkRightParen, q) :: rest)) as (pend & es' & S1 & F & T).
    { left. reflexivity. }
    exists [], (e :: es). split; [|split; [reflexivity|constructor]].
    eapply steps_trans; [cbn [app]; apply open_step|].
    rewrite <- app_assoc. eapply steps_trans; [exact S1|]. apply close_step. exact F.
  - (* binary *)
    intros o l wl hl tl r wr hr tr p Wl IHl Wr IHr Ll Lr es ops rest L.
    destruct (IHl es ops ((binop_token o, p) :: wr ++ rest)) as (pl & esl & S1 & F1 & T1).
    { eapply looser_le; [exact L|]. lia. }
    destruct (IHr (l :: es) ((OpBinary o, p) :: ops) rest) as (pr & esr & S2 & F2 & T2).
    { right. cbn [fst]. rewrite level_priority. exact Lr. }
    exists (pr ++ [(OpBinary o, p)]), esr. split; [|split].
    + rewrite <- !app_assoc. cbn [app]. eapply steps_trans; [exact S1|].
      eapply steps_trans; [apply binary_step; [exact F1|eapply tight_le; [exact T1|exact Ll]|]|exact S2].
      eapply looser_le; [exact L|]. lia.
    + apply folds_app. exists (r :: l :: es). split; [exact F2|]. cbn [folds]. split; [reflexivity|].
      eexists. split; reflexivity.
    + apply Forall_app. split; [eapply tight_le; [exact T2|lia]|]. constructor; [|constructor].
      cbn [fst]. rewrite level_priority. lia.
  - (* unary *)
    intros o e w h t p W IH Lh es ops rest L.
    destruct (IH es ((OpUnary o, p) :: ops) rest) as (pend & es' & S1 & F & T).
    { right. destruct o; exact Lh. }
    exists (pend ++ [(OpUnary o, p)]), es'. split; [|split].
    + rewrite <- app_assoc. cbn [app]. eapply steps_trans; [apply unary_step|exact S1].
    + apply folds_app. exists (e :: es). split; [exact F|]. cbn [folds]. split; [reflexivity|].
      eexists. split; reflexivity.
    + apply Forall_app. split; [eapply tight_le; [exact T|lia]|]. constructor; [|constructor].
      cbn [fst]. destruct o; unfold unary_level; cbn [op_priority]; lia.
  - (* call *)
    intros v vp p args w W IH es ops rest L. exists [], (ECall v vp args :: es).
    split; [|split; [reflexivity|constructor]].
    cbn [app]. eapply steps_trans; [apply operand_step; reflexivity|].
    intros n x E. destruct (IH rest) as [k K].
    exists (S (Nat.max n k)). unfold run. rewrite expr_loop_S. unfold loop_step.
    cbn [peek consume tl ends_expr operand_of fst].
    destruct (args_mono k (Nat.max n k) true [] (w ++ rest) ltac:(lia)) as [X|X]; [congruence|].
    rewrite <- X, K. unfold run in E. cbn [snd].
    destruct (loop_mono n (Nat.max n k) (ECall v vp args :: es) ops false rest ltac:(lia)) as [Y|Y]; [rewrite Y in E; discriminate E|rewrite <- Y; exact E].
  - (* no arguments *)
    intros q rest. exists 2. reflexivity.
  - intros args w W IH rest. apply IH.
  - (* last argument *)
    intros e w h t q W IH f spans rest.
    destruct (expr_run e w h t IH ((TkRightParen, q) :: rest)) as [n E]; [cbn; tauto|].
    exists (S n). apply args_end. rewrite <- app_assoc. exact E.
  - (* more arguments *)
    intros e w h t q args wa W IH Wa IHa f spans rest.
    destruct (expr_run e w h t IH ((TkComma, q) :: wa ++ rest)) as [n E]; [cbn; tauto|].
    destruct (IHa false (spans ++ [(Some e, SepLong, q)]) rest) as [k K].
    exists (S (Nat.max n k)). rewrite (args_more _ f spans _ e q (wa ++ rest)).
    + destruct (args_mono k (Nat.max n k) false (spans ++ [(Some e, SepLong, q)]) (wa ++ rest) ltac:(lia)) as [Y|Y].
      * rewrite K in Y. discriminate Y.
      * rewrite <- Y, K, <- app_assoc. reflexivity.
    + rewrite <- app_assoc.
      destruct (loop_mono n (Nat.max n k) [] [] true (w ++ (TkComma, q) :: wa ++ rest) ltac:(lia)) as [X|X].
      * rewrite E in X. discriminate X.
      * rewrite E in X. symmetry. exact X.
Qed.

Lemma parse_writing : forall e w h t rest, writes e w h t -> at_end rest ->
  parse_expr eof None (w ++ rest) = Ok (Some e, rest).
Proof.
  intros e w h t rest W A.
  destruct (expr_run e w h t (proj1 writes_run e w h t W) rest A) as [n E].
  unfold parse_expr. eapply loop_any_fuel. exact E.
Qed.

(** The caller has read a parenthesised first operand. *)
Lemma parse_args_writing : forall args w rest, writes_args args w ->
  parse_comma_separated_exprs eof (w ++ rest) = Ok (args, rest).
Proof.
  intros args w rest W. destruct (proj1 (proj2 writes_run) args w W rest) as [n E].
  unfold parse_comma_separated_exprs.
  destruct (args_mono n (Nat.max n (fuel (w ++ rest))) true [] (w ++ rest) ltac:(lia)) as [X|X]; [congruence|].
  destruct (args_mono (fuel (w ++ rest)) (Nat.max n (fuel (w ++ rest))) true [] (w ++ rest) ltac:(lia)) as [Y|Y]; [|congruence].
  exfalso. revert Y. apply (proj2 (enough_fuel _)). unfold fuel. lia.
Qed.

End Eof.

(** * Printing *)

Lemma written_ind' : forall P : expr -> Prop,
  (forall b p, P (EBoolean b p)) -> (forall d p, P (EDouble d p)) -> (forall z p, P (EInteger z p)) ->
  (forall s p, P (EText s p)) -> (forall v p, P (ESymbol v p)) ->
  (forall o l r p, P l -> P r -> P (EBinary o l r p)) -> (forall o e p, P e -> P (EUnary o e p)) ->
  (forall v vp args, args_shape args -> (forall e s q, In (Some e, s, q) args -> P e) -> P (ECall v vp args)) ->
  forall e, written e -> P e.
Proof.
  intros P H1 H2 H3 H4 H5 H6 H7 H8. fix IH 2. intros e W. destruct W; auto.
  apply H8; auto. intros e s q I. apply (IH e). eapply H0. exact I.
Qed.

Lemma print_writes : forall pp e, written e ->
  writes e (fst (fst (print pp e))) (snd (fst (print pp e))) (snd (print pp e)).
Proof.
  intros pp. apply written_ind'; intros; cbn [print fst snd]; try (constructor; fail).
  - (* binary *)
    destruct (print pp l) as [[wl hl] tl]. destruct (print pp r) as [[wr hr] tr].
    cbn [fst snd] in *. cbv zeta. cbn [fst snd].
    assert (XL : exists w h t, parens pp (tl <? level o) (wl, hl, tl) = (w, h, t) /\ writes l w h t /\ level o <= t).
    { unfold parens. destruct (Nat.ltb_spec tl (level o)); cbn [fst snd].
      - eexists _, _, _. split; [reflexivity|]. split; [econstructor; eassumption|]. pose proof (level_lt o). lia.
      - eexists _, _, _. split; [reflexivity|]. split; [eassumption|]. lia. }
    assert (XR : exists w h t, parens pp (hr <=? level o) (wr, hr, tr) = (w, h, t) /\ writes r w h t /\ level o < h).
    { unfold parens. destruct (Nat.leb_spec hr (level o)); cbn [fst snd].
      - eexists _, _, _. split; [reflexivity|]. split; [econstructor; eassumption|]. apply level_lt.
      - eexists _, _, _. split; [reflexivity|]. split; [eassumption|]. lia. }
    destruct XL as (w1 & h1 & t1 & E1 & W1 & L1). destruct XR as (w2 & h2 & t2 & E2 & W2 & L2).
    rewrite E1, E2. cbn [fst snd]. econstructor; eassumption.
  - (* unary *)
    destruct (print pp e) as [[w h] t]. cbn [fst snd] in *. cbv zeta. cbn [fst snd]. unfold parens.
    destruct (Nat.leb_spec h unary_level); cbn [fst snd].
    + apply w_unary with (h := closed) (t := closed); [econstructor; eassumption|]. unfold closed, unary_level. lia.
    + eapply w_unary; [eassumption|]. lia.
  - (* call *)
    apply w_call. destruct args as [|a args]; [constructor|]. apply wa_some.
    revert a H H0. induction args as [|b args IH]; intros [[o s] q] Sh W.
    + cbn [args_shape] in Sh. destruct Sh as [No ->]. destruct o as [e|]; [|congruence].
      specialize (W e SepEnd q (or_introl eq_refl)).
      change (writes_some [(Some e, SepEnd, q)] (fst (fst (print pp e)) ++ [(TkRightParen, q)])).
      econstructor. exact W.
    + change (o <> None /\ s = SepLong /\ args_shape (b :: args)) in Sh. destruct Sh as (No & -> & Sh).
      destruct o as [e|]; [|congruence].
      pose proof (W e SepLong q (or_introl eq_refl)) as We.
      econstructor; [exact We|]. apply IH; [exact Sh|]. intros e' s' q' I. eapply W. right. exact I.
Qed.

(** * Everything accepted is a writing *)

Definition is_symbol (t : token) : Prop := match t with TkSymbol _ => True | _ => False end.
(** Read after the tokens [pp] and [prev]. *)
Fixpoint clean (pp prev : token) (w : list tokspan) : Prop :=
  match w with
  | [] => True
  | (t, _) :: r =>
      ~ (t = TkNot /\ ends_operand prev) /\ ~ (t = TkLeftParen /\ prev = TkRightParen) /\
      ~ (t = TkRightParen /\ prev = TkLeftParen /\ ~ is_symbol pp) /\ clean prev t r
  end.

Lemma usual_clean_from : forall w a pp ppp prev pprev, usual (a ++ (pp, ppp) :: (prev, pprev) :: w) -> clean pp prev w.
Proof.
  induction w as [|[t p] r IH]; intros a pp ppp prev pprev H; [exact I|].
  cbn [clean]. split; [|split; [|split]].
  - intros [-> X]. revert X. apply (us_not _ H (a ++ [(pp, ppp)]) r prev pprev p).
    rewrite <- app_assoc. reflexivity.
  - intros [-> ->]. apply (us_call _ H (a ++ [(pp, ppp)]) r pprev p). rewrite <- app_assoc. reflexivity.
  - intros (-> & -> & X). apply X.
    destruct (us_empty _ H (a ++ [(pp, ppp)]) r pprev p) as (a' & v & q & E); [rewrite <- app_assoc; reflexivity|].
    apply app_inj_tail in E. destruct E as [_ E]. apply pair_equal_spec in E. destruct E as [-> _]. exact I.
  - apply (IH (a ++ [(pp, ppp)]) prev pprev t p). rewrite <- app_assoc. exact H.
Qed.

Lemma usual_clean : forall w, usual w -> clean TkEol TkEol w.
Proof.
  intros [|[t p] r] H; [exact I|]. cbn [clean].
  split; [intros [_ X]; destruct X|]. split; [intros [_ X]; discriminate X|].
  split; [intros (_ & X & _); discriminate X|].
  destruct r as [|[t2 p2] r]; [exact I|]. cbn [clean].
  split; [intros [-> X]; revert X; apply (us_not _ H [] r t p p2); reflexivity|].
  split; [intros [-> ->]; apply (us_call _ H [] r p p2); reflexivity|].
  split.
  - intros (-> & -> & _). destruct (us_empty _ H [] r p p2 eq_refl) as (a' & v & q & E).
    destruct a'; discriminate E.
  - apply (usual_clean_from r [] t p t2 p2). exact H.
Qed.

Definition last2 (x : token * token) (w : list tokspan) : token * token :=
  fold_left (fun (y : token * token) (t : tokspan) => (snd y, fst t)) w x.
Lemma clean_app : forall a pp prev b, clean pp prev (a ++ b) ->
  clean pp prev a /\ clean (fst (last2 (pp, prev) a)) (snd (last2 (pp, prev) a)) b.
Proof.
  induction a as [|[t p] r IH]; intros pp prev b H; [split; [exact I|exact H]|].
  cbn [app clean] in *. destruct H as (H1 & H2 & H3 & H4). apply IH in H4. destruct H4 as [H4 H5].
  split; [auto|]. exact H5.
Qed.
Lemma last2_snoc : forall x w t p, snd (last2 x (w ++ [(t, p)])) = t.
Proof. intros x w t p. unfold last2. rewrite fold_left_app. reflexivity. Qed.

(** Operands against the binary operators that wait for them. *)
Fixpoint waiting (ops : list opspan) : nat :=
  match ops with [] => 0 | (OpBinary _, _) :: r => S (waiting r) | _ :: r => waiting r end.

Lemma apply_count : forall o r es es', apply_op o es = Ok es' ->
  length es' + waiting (o :: r) = length es + waiting r /\ 1 <= length es' + (if is_paren o then 1 else 0).
Proof.
  intros [[|b|x] p] r es es' H; unfold apply_op, bad in H; cbn [fst snd waiting is_paren] in *.
  - apply Ok_inj in H. subst. cbn. lia.
  - destruct es as [|a [|c d]]; try discriminate H. apply Ok_inj in H. subst. cbn [length is_paren fst]. lia.
  - destruct es as [|a d]; try discriminate H. apply Ok_inj in H. subst. cbn [length is_paren fst]. lia.
Qed.
Lemma reduce_count : forall k ops es es' ops', reduce k es ops = Ok (es', ops') ->
  length es' + waiting ops = length es + waiting ops'.
Proof.
  induction ops as [|o r IH]; intros es es' ops' H; cbn [reduce] in H.
  - apply Ok_inj, pair_equal_spec in H. destruct H as [<- <-]. reflexivity.
  - destruct (is_paren o || _).
    + apply Ok_inj, pair_equal_spec in H. destruct H as [<- <-]. reflexivity.
    + destruct (apply_op o es) as [es1|] eqn:A; [|discriminate H].
      apply (apply_count o r) in A. apply IH in H. lia.
Qed.
Lemma close_count : forall ops es es' ops', close_paren es ops = Ok (es', ops') ->
  length es' + waiting ops = length es + waiting ops'.
Proof.
  induction ops as [|o r IH]; intros es es' ops' H; cbn [close_paren] in H; [discriminate H|].
  destruct (apply_op o es) as [es1|] eqn:A; [|discriminate H]. apply (apply_count o r) in A.
  destruct (is_paren o).
  - apply Ok_inj, pair_equal_spec in H. destruct H as [<- <-]. lia.
  - apply IH in H. lia.
Qed.
Lemma finish_count : forall ops es e, finish es ops = Ok (Some e) -> waiting ops < length es.
Proof.
  induction ops as [|o r IH]; intros es e H; cbn [finish] in H.
  - destruct es; [discriminate H|]. cbn. lia.
  - destruct (is_paren o); [discriminate H|].
    destruct (apply_op o es) as [es1|] eqn:A; [|discriminate H]. apply (apply_count o r) in A.
    apply IH in H. lia.
Qed.

(** What has been read when an operand is needed. *)
Inductive ctx : list opspan -> list expr -> list tokspan -> Prop :=
| cx_nil : ctx [] [] []
| cx_paren ops es w p : ctx ops es w -> ctx ((OpParen, p) :: ops) es (w ++ [(TkLeftParen, p)])
| cx_unary ops es w o p : ctx ops es w -> ctx ((OpUnary o, p) :: ops) es (w ++ [(unop_token o, p)])
| cx_binary ops es w o e we h t p : ctx ops es w -> writes e we h t -> level o <= t -> looser h ops ->
    looser (level o) ops ->
    ctx ((OpBinary o, p) :: ops) (e :: es) (w ++ we ++ [(binop_token o, p)]).

Lemma ctx_count : forall ops es w, ctx ops es w -> length es = waiting ops.
Proof. intros ops es w H. induction H; cbn [length waiting]; lia. Qed.

Lemma looser_closed : forall ops, looser closed ops.
Proof.
  intros [|[o p] r]; [exact I|]. cbn [looser is_paren fst]. unfold closed.
  destruct o as [|b|x]; [left; reflexivity|right|right]; [destruct b|destruct x]; cbn [op_priority]; lia.
Qed.

Lemma ctx_unary : forall ops es w e we h t o p, writes e we h t -> looser h ((OpUnary o, p) :: ops) ->
  ctx ops es w -> writes (EUnary o e p) ((unop_token o, p) :: we) closed (Nat.min unary_level t).
Proof.
  intros ops es w e we h t o p W L C. eapply w_unary; [exact W|].
  destruct L as [L|L]; [discriminate L|]. destruct o; exact L.
Qed.

Lemma reduce_ctx : forall ops es w, ctx ops es w -> forall e we h t k es' ops',
  writes e we h t -> looser h ops -> k <= t ->
  reduce k (e :: es) ops = Ok (es', ops') ->
  exists e' we' h' t' es1 w', es' = e' :: es1 /\ ctx ops' es1 w' /\ writes e' we' h' t' /\
    looser h' ops' /\ k <= t' /\ looser k ops' /\ w ++ we = w' ++ we'.
Proof.
  intros ops es w C. induction C as [|ops es w p C IH|ops es w o p C IH|ops es w o l wl hl tl p C IH Wl Ll L1 L2];
    intros e we h t k es' ops' W L K H; cbn [reduce is_paren fst orb] in H.
  - apply Ok_inj, pair_equal_spec in H. destruct H as [<- <-].
    exists e, we, h, t, [], []. repeat split; auto. constructor.
  - apply Ok_inj, pair_equal_spec in H. destruct H as [<- <-].
    eexists e, we, h, t, es, _. split; [reflexivity|]. split; [apply cx_paren; exact C|].
    repeat split; auto. left. reflexivity.
  - destruct (Nat.ltb_spec (op_priority (OpUnary o)) k) as [X|X].
    + apply Ok_inj, pair_equal_spec in H. destruct H as [<- <-].
      eexists e, we, h, t, es, _. split; [reflexivity|]. split; [apply cx_unary; exact C|].
      repeat split; auto. right. exact X.
    + cbn [apply_op fst snd] in H.
      apply (IH (EUnary o e p) ((unop_token o, p) :: we) closed (Nat.min unary_level t)) in H.
      * destruct H as (e' & we' & h' & t' & es1 & w' & -> & C' & W' & L' & K' & LK & E).
        exists e', we', h', t', es1, w'. repeat split; auto. rewrite <- E, <- app_assoc. reflexivity.
      * eapply ctx_unary; eassumption.
      * apply looser_closed.
      * destruct o; cbn [op_priority] in X; unfold unary_level; lia.
  - rewrite level_priority in H. destruct (Nat.ltb_spec (level o) k) as [X|X].
    + apply Ok_inj, pair_equal_spec in H. destruct H as [<- <-].
      eexists e, we, h, t, (l :: es), _. split; [reflexivity|].
      split; [eapply cx_binary; eassumption|]. repeat split; auto.
      right. cbn [fst]. rewrite level_priority. exact X.
    + cbn [apply_op fst snd] in H.
      apply (IH (EBinary o l e p) (wl ++ (binop_token o, p) :: we) (Nat.min hl (level o)) (Nat.min (level o) t)) in H.
      * destruct H as (e' & we' & h' & t' & es1 & w' & -> & C' & W' & L' & K' & LK & E).
        exists e', we', h', t', es1, w'. repeat split; auto. rewrite <- E, <- !app_assoc. reflexivity.
      * econstructor; eauto. destruct L as [L|L]; [discriminate L|]. cbn [fst] in L. rewrite level_priority in L. exact L.
      * destruct (Nat.min_dec hl (level o)) as [M|M]; rewrite M; assumption.
      * lia.
Qed.

Lemma close_ctx : forall ops es w, ctx ops es w -> forall e we h t es' ops',
  writes e we h t -> looser h ops -> close_paren (e :: es) ops = Ok (es', ops') ->
  exists e' we' h' t' es1 w' p, es' = e' :: es1 /\ ctx ops' es1 w' /\ writes e' we' h' t' /\
    w ++ we = w' ++ (TkLeftParen, p) :: we'.
Proof.
  intros ops es w C. induction C as [|ops es w p C IH|ops es w o p C IH|ops es w o l wl hl tl p C IH Wl Ll L1 L2];
    intros e we h t es' ops' W L H; cbn [close_paren apply_op fst snd is_paren] in H.
  - discriminate H.
  - apply Ok_inj, pair_equal_spec in H. destruct H as [<- <-].
    exists e, we, h, t, es, w, p. repeat split; auto. rewrite <- app_assoc. reflexivity.
  - apply (IH (EUnary o e p) ((unop_token o, p) :: we) closed (Nat.min unary_level t)) in H.
    + destruct H as (e' & we' & h' & t' & es1 & w' & p' & -> & C' & W' & E).
      exists e', we', h', t', es1, w', p'. repeat split; auto. rewrite <- E, <- app_assoc. reflexivity.
    + eapply ctx_unary; eassumption.
    + apply looser_closed.
  - apply (IH (EBinary o l e p) (wl ++ (binop_token o, p) :: we) (Nat.min hl (level o)) (Nat.min (level o) t)) in H.
    + destruct H as (e' & we' & h' & t' & es1 & w' & p' & -> & C' & W' & E).
      exists e', we', h', t', es1, w', p'. repeat split; auto. rewrite <- E, <- !app_assoc. reflexivity.
    + econstructor; eauto. destruct L as [L|L]; [discriminate L|]. cbn [fst] in L. rewrite level_priority in L. exact L.
    + destruct (Nat.min_dec hl (level o)) as [M|M]; rewrite M; assumption.
Qed.

Lemma finish_ctx : forall ops es w, ctx ops es w -> forall e we h t r,
  writes e we h t -> looser h ops -> finish (e :: es) ops = Ok r ->
  exists e' h' t', r = Some e' /\ writes e' (w ++ we) h' t'.
Proof.
  intros ops es w C. induction C as [|ops es w p C IH|ops es w o p C IH|ops es w o l wl hl tl p C IH Wl Ll L1 L2];
    intros e we h t r W L H; cbn [finish apply_op fst snd is_paren] in H.
  - apply Ok_inj in H. subst r. exists e, h, t. auto.
  - discriminate H.
  - apply (IH (EUnary o e p) ((unop_token o, p) :: we) closed (Nat.min unary_level t)) in H.
    + destruct H as (e' & h' & t' & -> & W'). exists e', h', t'. split; [reflexivity|].
      rewrite <- app_assoc. exact W'.
    + eapply ctx_unary; eassumption.
    + apply looser_closed.
  - apply (IH (EBinary o l e p) (wl ++ (binop_token o, p) :: we) (Nat.min hl (level o)) (Nat.min (level o) t)) in H.
    + destruct H as (e' & h' & t' & -> & W'). exists e', h', t'. split; [reflexivity|].
      rewrite <- !app_assoc. exact W'.
    + econstructor; eauto. destruct L as [L|L]; [discriminate L|]. cbn [fst] in L. rewrite level_priority in L. exact L.
    + destruct (Nat.min_dec hl (level o)) as [M|M]; rewrite M; assumption.
Qed.

Lemma apply_nonempty : forall o es es', apply_op o es = Ok es' ->
  (is_paren o = false \/ es <> []) -> es' <> [].
Proof.
  intros [[|b|x] p] es es' H N1; unfold apply_op, bad in H; cbn [fst snd is_paren] in *.
  - apply Ok_inj in H. subst. destruct N1; [discriminate|auto].
  - destruct es as [|a [|c d]]; try discriminate H. apply Ok_inj in H. subst. discriminate.
  - destruct es as [|a d]; try discriminate H. apply Ok_inj in H. subst. discriminate.
Qed.
Lemma reduce_nonempty : forall k ops es es' ops', reduce k es ops = Ok (es', ops') -> es <> [] -> es' <> [].
Proof.
  induction ops as [|o r IH]; intros es es' ops' H NE; cbn [reduce] in H.
  - apply Ok_inj, pair_equal_spec in H. destruct H as [<- <-]. exact NE.
  - destruct (is_paren o || _).
    + apply Ok_inj, pair_equal_spec in H. destruct H as [<- <-]. exact NE.
    + destruct (apply_op o es) as [es1|] eqn:A; [|discriminate H].
      apply apply_nonempty in A; [|right; exact NE]. eapply IH; eassumption.
Qed.
Lemma close_nonempty : forall ops es es' ops', close_paren es ops = Ok (es', ops') ->
  (es <> [] \/ match ops with o :: _ => is_paren o = false | [] => True end) -> es' <> [].
Proof.
  induction ops as [|o r IH]; intros es es' ops' H NE; cbn [close_paren] in H; [discriminate H|].
  destruct (apply_op o es) as [es1|] eqn:A; [|discriminate H].
  apply apply_nonempty in A; [|tauto].
  destruct (is_paren o).
  - apply Ok_inj, pair_equal_spec in H. destruct H as [<- <-]. exact A.
  - eapply IH; [exact H|]. left. exact A.
Qed.
Lemma finish_none : forall ops es, finish es ops = Ok None -> es = [] /\ ops = [].
Proof.
  induction ops as [|o r IH]; intros es H; cbn [finish] in H.
  - destruct es; [auto|discriminate H].
  - destruct (is_paren o) eqn:P; [discriminate H|].
    destruct (apply_op o es) as [es1|] eqn:A; [|discriminate H].
    apply apply_nonempty in A; [|auto]. apply IH in H. tauto.
Qed.

(** More operators than operands. *)
Definition broken (es : list expr) (ops : list opspan) (need : bool) : Prop :=
  length es + (if need then 1 else 0) <= waiting ops /\ 1 <= length es + waiting ops.
(** The state after reading [w] as part of a writing. *)
Definition sound (prev : token) (es : list expr) (ops : list opspan) (need : bool) (w : list tokspan) : Prop :=
  if need then ctx ops es w
  else exists e es1 w1 we, es = e :: es1 /\ ctx ops es1 w1 /\ writes e we closed closed /\ w = w1 ++ we /\
    (prev <> TkRightParen -> exists p, we = [(prev, p)] /\ operand_of (prev, p) = Some e).
(** A parenthesis on top has just been read. *)
Definition top_ok (ops : list opspan) (need : bool) (pp prev : token) : Prop :=
  match ops with
  | o :: _ => need = true -> is_paren o = true -> prev = TkLeftParen /\ ~ is_symbol pp
  | [] => True
  end.

Lemma binop_of_token : forall t b, binop_of t = Some b -> t = binop_token b.
Proof. intros t b H. destruct t; try discriminate H; cbn [binop_of] in H; apply (f_equal (fun o => match o with Some x => x | None => b end)) in H; subst b; reflexivity. Qed.

Section Eof2.
Variable eof : linecol.
Local Notation expr_loop := (expr_loop eof).
Local Notation call_args := (call_args eof).

Definition loop_conv (n : nat) : Prop := forall es ops need ts r rest pp prev w0,
  expr_loop n es ops need ts = Ok (r, rest) -> (if need : bool then ~ ends_operand prev else ends_operand prev) ->
  top_ok ops need pp prev ->
  exists w, ts = w ++ rest /\ at_end rest /\ (clean pp prev w -> ~ broken es ops need /\
    (sound prev es ops need w0 ->
     match r with Some e => exists h t, writes e (w0 ++ w) h t | None => w0 ++ w = [] end)).

Definition args_conv (n : nat) : Prop := forall f spans ts a rest pp prev,
  call_args n f spans ts = Ok (a, rest) -> ~ ends_operand prev ->
  exists w1 q, ts = w1 ++ (TkRightParen, q) :: rest /\ (clean pp prev (w1 ++ [(TkRightParen, q)]) ->
    exists args, a = spans ++ args /\
      (writes_some args (w1 ++ [(TkRightParen, q)]) \/ (f = true /\ args = [] /\ w1 = []))).

(** A step that reads one token. *)
Lemma conv_token : forall n es ops need ts r rest pp prev w0 es' ops' need' t p,
  loop_conv n -> expr_loop n es' ops' need' ts = Ok (r, rest) ->
  (if need' : bool then ~ ends_operand t else ends_operand t) -> top_ok ops' need' prev t ->
  (clean pp prev [(t, p)] -> broken es ops need -> broken es' ops' need') ->
  (clean pp prev [(t, p)] -> sound prev es ops need w0 ->
     broken es' ops' need' \/ sound t es' ops' need' (w0 ++ [(t, p)])) ->
  exists w, (t, p) :: ts = w ++ rest /\ at_end rest /\ (clean pp prev w -> ~ broken es ops need /\
    (sound prev es ops need w0 ->
     match r with Some e => exists h t, writes e (w0 ++ w) h t | None => w0 ++ w = [] end)).
Proof.
  intros n es ops need ts r rest pp prev w0 es' ops' need' t p IH H A T B SD.
  destruct (IH es' ops' need' ts r rest prev t (w0 ++ [(t, p)]) H A T) as (w & -> & AE & K).
  exists ((t, p) :: w). split; [reflexivity|]. split; [exact AE|]. intros C.
  assert (C1 : clean pp prev [(t, p)]) by (cbn [clean] in *; tauto).
  assert (C2 : clean prev t w) by (cbn [clean] in C; tauto).
  specialize (K C2). destruct K as [K1 K2]. split; [tauto|].
  intros S1. destruct (SD C1 S1) as [X|X]; [tauto|]. specialize (K2 X).
  destruct r as [e|].
  - destruct K2 as (h & t' & W). exists h, t'. rewrite <- app_assoc in W. exact W.
  - rewrite <- app_assoc in K2. exact K2.
Qed.

Lemma conv_binary : forall n es ops need ts r rest pp prev w0 es' ops' b p,
  loop_conv n -> reduce (op_priority (OpBinary b)) es ops = Ok (es', ops') ->
  expr_loop n es' ((OpBinary b, p) :: ops') true ts = Ok (r, rest) ->
  need = false \/ b <> BSubtract ->
  exists w, (binop_token b, p) :: ts = w ++ rest /\ at_end rest /\ (clean pp prev w -> ~ broken es ops need /\
    (sound prev es ops need w0 ->
     match r with Some e => exists h t, writes e (w0 ++ w) h t | None => w0 ++ w = [] end)).
Proof.
  intros n es ops need ts r rest pp prev w0 es' ops' b p IH R H ND.
  pose proof (reduce_count _ _ _ _ _ R) as RC.
  eapply (conv_token n es ops need ts r rest pp prev w0); [exact IH|exact H| | | |].
  - destruct b; intros X; exact X.
  - intros _ X. discriminate X.
  - intros _ [B1 B2]. split; cbn [waiting length]; destruct need; lia.
  - intros _ S1. destruct need.
    + left. cbn [sound] in S1. apply ctx_count in S1. split; cbn [waiting]; lia.
    + right. destruct S1 as (e & es1 & w1 & we & -> & C & W & -> & _). cbn [sound].
      rewrite level_priority in R.
      destruct (reduce_ctx ops es1 w1 C e we closed closed (level b) es' ops' W (looser_closed _)
        (Nat.lt_le_incl _ _ (level_lt b)) R)
        as (e' & we' & h' & t' & es2 & w2 & -> & C' & W' & L' & K' & LK & E).
      rewrite E, <- app_assoc. eapply cx_binary; eassumption.
Qed.

Lemma conv : forall n, loop_conv n /\ args_conv n.
Proof.
  induction n as [|n [IH1 IH2]].
  { split; [intros es ops need ts r rest pp prev w0 H; discriminate H|
            intros f spans ts a rest pp prev H; discriminate H]. }
  split.
  - intros es ops need ts r rest pp prev w0 H A T. rewrite expr_loop_S in H. unfold loop_step in H.
    destruct (peek eof ts) as [tok pos] eqn:PK.
    destruct (ends_expr tok ops) eqn:EE.
    { destruct (finish es ops) as [r'|] eqn:F; [|discriminate H].
      apply Ok_inj, pair_equal_spec in H. destruct H as [<- <-].
      exists []. split; [reflexivity|]. split.
      - destruct ts as [|[t q] ts]; [exact I|]. cbn [peek] in PK. apply pair_equal_spec in PK.
        destruct PK as [-> _]. cbn [at_end]. unfold ends. destruct tok; try discriminate EE; cbn [In]; tauto.
      - intros _. split.
        + intros [B1 B2]. destruct r' as [e|].
          * apply finish_count in F. destruct need; lia.
          * apply finish_none in F. destruct F as [-> ->]. cbn in B2. lia.
        + rewrite app_nil_r. destruct need; cbn [sound].
          * intros C. destruct r' as [e|].
            -- apply finish_count in F. apply ctx_count in C. lia.
            -- apply finish_none in F. destruct F as [-> ->]. inversion C. reflexivity.
          * intros (e & es1 & w1 & we & -> & C & W & -> & _).
            destruct (finish_ctx ops es1 w1 C e we closed closed r' W (looser_closed _) F) as (e' & h & t & -> & W').
            exists h, t. exact W'. }
    destruct ts as [|[t q] ts].
    { cbn [peek] in PK. apply pair_equal_spec in PK. destruct PK as [<- _]. discriminate EE. }
    cbn [peek] in PK. apply pair_equal_spec in PK. destruct PK as [-> ->].
    cbv zeta in H. cbn [consume tl] in H.
    destruct (operand_of (tok, pos)) as [x|] eqn:OP.
    { destruct need; [|discriminate H].
      eapply (conv_token n es ops true ts r rest pp prev w0); [exact IH1|exact H| | | |].
      - destruct tok; try discriminate OP; exact I.
      - destruct ops; [exact I|]. intros X. discriminate X.
      - intros _ [B1 B2]. split; cbn [length]; lia.
      - intros _ C. right. cbn [sound] in *. exists x, es, w0, [(tok, pos)]. split; [reflexivity|].
        split; [exact C|]. split; [|split; [reflexivity|]].
        + destruct tok; try discriminate OP; cbn [operand_of fst snd] in OP;
            (assert (x0 : True) by exact I); clear x0; inversion OP; constructor.
        + intros _. exists pos. auto. }
    destruct tok; try discriminate OP; try discriminate EE; try discriminate H; cbn [binop_of] in H;
      try (match type of H with
           | match reduce (op_priority (OpBinary ?b)) es ops with _ => _ end = _ =>
               destruct (reduce (op_priority (OpBinary b)) es ops) as [[es' ops']|] eqn:R; [|discriminate H];
               apply (conv_binary n es ops need ts r rest pp prev w0 es' ops' b pos IH1 R H);
               right; discriminate
           end).
    + (* left parenthesis *)
      assert (GROUP : forall es, need = true -> expr_loop n es ((OpParen, pos) :: ops) true ts = Ok (r, rest) ->
        exists w, (TkLeftParen, pos) :: ts = w ++ rest /\ at_end rest /\ (clean pp prev w -> ~ broken es ops need /\
          (sound prev es ops need w0 ->
           match r with Some e => exists h t, writes e (w0 ++ w) h t | None => w0 ++ w = [] end))).
      { clear H es. intros es -> H. 
        eapply (conv_token n es ops true ts r rest pp prev w0); [exact IH1|exact H| | | |].
        - intros X. exact X.
        - intros _ _. split; [reflexivity|]. intros X. apply A. destruct prev; try destruct X. exact I.
        - intros _ B. exact B.
        - intros _ C. right. cbn [sound] in *. apply cx_paren. exact C. }
      destruct need.
      { destruct es as [|[] es]; apply GROUP; auto. }
      clear GROUP. destruct es as [|x es]; [discriminate H|].
      destruct x as [| | | |v vpos| | |]; try discriminate H.
      destruct (call_args n true [] ts) as [[args ts'']|] eqn:CA; [|discriminate H].
      destruct (IH2 true [] ts args ts'' prev TkLeftParen CA ltac:(intros X; exact X)) as (w1 & q & -> & K).
      set (l2 := last2 (pp, prev) ((TkLeftParen, pos) :: w1 ++ [(TkRightParen, q)])).
      destruct (IH1 (ECall v vpos args :: es) ops false ts'' r rest (fst l2) (snd l2)
        (w0 ++ (TkLeftParen, pos) :: w1 ++ [(TkRightParen, q)]) H) as (w & -> & AE & KK).
      { unfold l2. rewrite app_comm_cons, last2_snoc. exact I. }
      { destruct ops; [exact I|]. intros X. discriminate X. }
      exists (((TkLeftParen, pos) :: w1 ++ [(TkRightParen, q)]) ++ w). split; [cbn [app]; rewrite <- !app_assoc; reflexivity|].
      split; [exact AE|]. intros C. apply clean_app in C. destruct C as [C1 C2].
      specialize (KK C2). destruct KK as [K1 K2].
      split; [intros [B1 B2]; apply K1; split; cbn [length] in *; lia|].
      intros (e & es1 & w2 & we & E & CX & W & -> & P).
      cbn [clean] in C1. destruct C1 as (_ & NRP & _ & C1). specialize (K C1).
      assert (prev <> TkRightParen) as NP by (intros ->; tauto).
      destruct (P NP) as (p & -> & OPR).
      assert (e = ESymbol v vpos /\ es1 = es) as [-> ->] by (split; congruence).
      assert (prev = TkSymbol v /\ p = vpos) as [-> ->].
      { destruct prev; try discriminate OPR; cbn [operand_of fst snd] in OPR. split; congruence. }
      destruct K as (args' & EA & K). cbn [app] in EA. subst args'.
      rewrite app_assoc.
      apply K2. cbn [sound]. exists (ECall v vpos args), es, w2, ((TkSymbol v, vpos) :: (TkLeftParen, pos) :: w1 ++ [(TkRightParen, q)]).
      split; [reflexivity|]. split; [exact CX|]. split.
      { apply w_call. destruct K as [K|(_ & -> & ->)]; [apply wa_some; exact K|apply wa_none]. }
      split; [rewrite <- app_assoc; reflexivity|].
      intros X. exfalso. apply X. unfold l2. rewrite app_comm_cons, last2_snoc. reflexivity.
    + (* right parenthesis *)
      destruct (close_paren es ops) as [[es' ops']|] eqn:CP; [|discriminate H].
      pose proof (close_count _ _ _ _ CP) as CC.
      eapply (conv_token n es ops need ts r rest pp prev w0); [exact IH1|exact H|exact I| | |].
      * destruct ops'; [exact I|]. intros X. discriminate X.
      * intros _ [B1 B2]. split; [destruct need; lia|].
        destruct es as [|e es]; [|].
        -- cbn [length] in *. lia.
        -- apply close_nonempty in CP; [|left; discriminate]. destruct es'; [congruence|]. cbn [length]. lia.
      * intros C S1. destruct need.
        -- cbn [sound] in S1. pose proof (ctx_count _ _ _ S1) as N1.
           destruct ops as [|o ops]; [discriminate CP|].
           destruct (is_paren o) eqn:PO.
           ++ cbn [clean] in C. destruct (T eq_refl PO) as [-> NS]. tauto.
           ++ left. apply close_nonempty in CP; [|right; exact PO].
              split; [lia|]. destruct es'; [congruence|]. cbn [length]. lia.
        -- right. destruct S1 as (e & es1 & w1 & we & -> & CX & W & -> & _).
           destruct (close_ctx ops es1 w1 CX e we closed closed es' ops' W (looser_closed _) CP)
             as (e' & we' & h' & t' & es2 & w2 & p & -> & CX' & W' & E).
           cbn [sound]. exists e', es2, w2, ((TkLeftParen, p) :: we' ++ [(TkRightParen, pos)]).
           split; [reflexivity|]. split; [exact CX'|]. split; [econstructor; exact W'|].
           split; [rewrite E, <- app_assoc; reflexivity|congruence].
    + (* minus *)
      destruct need.
      * eapply (conv_token n es ops true ts r rest pp prev w0); [exact IH1|exact H|intros X; exact X| | |].
        -- intros _ X. discriminate X.
        -- intros _ B. exact B.
        -- intros _ C. right. cbn [sound] in *. exact (cx_unary ops es w0 UNegate pos C).
      * destruct (reduce (op_priority (OpBinary BSubtract)) es ops) as [[es' ops']|] eqn:R; [|discriminate H].
        apply (conv_binary n es ops false ts r rest pp prev w0 es' ops' BSubtract pos IH1 R H). left. reflexivity.
    + (* NOT *)
      eapply (conv_token n es ops need ts r rest pp prev w0); [exact IH1|exact H|intros X; exact X| | |].
      * intros _ X. discriminate X.
      * intros C B. destruct need; [exact B|]. cbn [clean] in C. tauto.
      * intros C S1. right. destruct need; [exact (cx_unary ops es w0 UNot pos S1)|]. cbn [clean] in C. tauto.
  - intros f spans ts a rest pp prev H A. rewrite call_args_S in H. unfold args_step in H.
    destruct (expr_loop n [] [] true ts) as [[pe ts1]|] eqn:E; [|discriminate H].
    destruct (IH1 [] [] true ts pe ts1 pp prev [] E A I) as (w & -> & AE & K).
    destruct ts1 as [|[tok pos] ts1]; [cbn [peek] in H; destruct pe; discriminate H|].
    cbn [peek consume tl] in H.
    assert (SN : sound prev [] [] true []) by constructor.
    destruct tok; try (destruct pe; discriminate H).
    + (* comma *)
      destruct pe as [e|]; [|discriminate H].
      destruct (IH2 false _ ts1 a rest (snd (last2 (pp, prev) w)) TkComma H ltac:(intros X; exact X)) as (w1 & q & -> & KK).
      exists (w ++ (TkComma, pos) :: w1), q. split; [rewrite <- app_assoc; reflexivity|].
      intros C. rewrite <- app_assoc in C. apply clean_app in C. destruct C as [C1 C2].
      cbn [app clean] in C2. destruct C2 as (_ & _ & _ & C2).
      destruct (KK C2) as (args & -> & KA). destruct (K C1) as [_ K2]. specialize (K2 SN).
      cbn [app] in K2. destruct K2 as (h & t & W).
      exists ((Some e, SepLong, pos) :: args). split; [rewrite <- app_assoc; reflexivity|].
      left. rewrite <- app_assoc. cbn [app]. destruct KA as [KA|(X & _)]; [|discriminate X].
      eapply ws_more; eassumption.
    + (* right parenthesis *)
      destruct pe as [e|].
      * apply Ok_inj, pair_equal_spec in H. destruct H as [<- <-].
        exists w, pos. split; [reflexivity|]. intros C. apply clean_app in C. destruct C as [C1 _].
        destruct (K C1) as [_ K2]. specialize (K2 SN). cbn [app] in K2. destruct K2 as (h & t & W).
        exists [(Some e, SepEnd, pos)]. split; [reflexivity|]. left. eapply ws_last. exact W.
      * destruct f; [|discriminate H]. apply Ok_inj, pair_equal_spec in H. destruct H as [<- <-].
        exists w, pos. split; [reflexivity|]. intros C. apply clean_app in C. destruct C as [C1 _].
        destruct (K C1) as [_ K2]. specialize (K2 SN). cbn [app] in K2.
        exists []. split; [rewrite app_nil_r; reflexivity|]. right. auto.
Qed.

Lemma parse_converse : forall ts r rest, parse_expr eof None ts = Ok (r, rest) ->
  exists w, ts = w ++ rest /\ at_end rest /\ (usual w ->
    match r with Some e => exists h t, writes e w h t | None => w = [] end).
Proof.
  intros ts r rest H. unfold parse_expr in H.
  destruct (proj1 (conv (fuel ts)) [] [] true ts r rest TkEol TkEol [] H ltac:(intros X; exact X) I)
    as (w & E & AE & K).
  exists w. split; [exact E|]. split; [exact AE|]. intros U.
  destruct (K (usual_clean w U)) as [_ K2]. apply K2. constructor.
Qed.

(** The parser's assertion holds. *)
Lemma close_no_panic : forall ops es, existsb is_paren ops = true -> close_paren es ops <> Err PPanic.
Proof.
  induction ops as [|o r IH]; intros es H; [discriminate H|]. cbn [existsb close_paren] in *.
  destruct (apply_op o es) eqn:A.
  - destruct (is_paren o); [discriminate|]. apply IH. exact H.
  - destruct o as [[|b|x] p]; unfold apply_op, bad in A; cbn [fst snd] in A; [discriminate A| |].
    + destruct es as [|a0 [|b0 c0]]; try discriminate A; inversion A; subst; discriminate.
    + destruct es; try discriminate A; inversion A; subst; discriminate.
Qed.
Lemma apply_no_panic : forall o es, apply_op o es <> Err PPanic.
Proof.
  intros [[|b|x] p] es; unfold apply_op, bad; cbn [fst snd]; [discriminate| |].
  - destruct es as [|a0 [|b0 c0]]; discriminate.
  - destruct es; discriminate.
Qed.
Lemma reduce_no_panic : forall k ops es, reduce k es ops <> Err PPanic.
Proof.
  induction ops as [|o r IH]; intros es; cbn [reduce]; [discriminate|].
  destruct (is_paren o || _); [discriminate|].
  pose proof (apply_no_panic o es) as X. destruct (apply_op o es); [apply IH|]. intros H. apply X. congruence.
Qed.
Lemma finish_no_panic : forall ops es, finish es ops <> Err PPanic.
Proof.
  induction ops as [|o r IH]; intros es; cbn [finish]; [discriminate|].
  destruct (is_paren o); [discriminate|].
  pose proof (apply_no_panic o es) as X. destruct (apply_op o es); [apply IH|]. intros H. apply X. congruence.
Qed.

Lemma no_panic : forall n,
  (forall es ops need ts, expr_loop n es ops need ts <> Err PPanic) /\
  (forall f spans ts, call_args n f spans ts <> Err PPanic).
Proof.
  induction n as [|n [IH1 IH2]]; [split; discriminate|]. split.
  - intros es ops need ts. rewrite expr_loop_S. unfold loop_step.
    destruct (peek eof ts) as [tok pos]. destruct (ends_expr tok ops) eqn:EE.
    { pose proof (finish_no_panic ops es) as X. destruct (finish es ops); [discriminate|]. intros H. apply X. congruence. }
    cbv zeta.
    assert (FIN : forall A (x : pres A) B (k : A -> pres B), x <> Err PPanic -> (forall a, k a <> Err PPanic) ->
        match x with Ok a => k a | Err e => Err e end <> Err PPanic).
    { intros A x B k F K. destruct x; [apply K|]. intros X. apply F. congruence. }
    destruct (operand_of (tok, pos)); [destruct need; [apply IH1|discriminate]|].
    destruct tok; try discriminate; cbn [binop_of]; try apply IH1;
      try (apply FIN; [apply reduce_no_panic|]; intros [? ?]; apply IH1).
    + destruct es as [|[] r]; destruct need; try discriminate; try apply IH1.
      apply FIN; [apply IH2|]. intros [? ?]. apply IH1.
    + apply FIN; [|intros [? ?]; apply IH1]. apply close_no_panic. cbn [ends_expr] in EE.
      destruct (existsb is_paren ops); [reflexivity|discriminate EE].
    + destruct need; [apply IH1|]. apply FIN; [apply reduce_no_panic|]; intros [? ?]; apply IH1.
  - intros f spans ts. rewrite call_args_S. unfold args_step.
    pose proof (IH1 [] [] true ts) as X. destruct (expr_loop n [] [] true ts) as [[pe ts1]|]; [|intros H; apply X; congruence].
    destruct (peek eof ts1) as [tok pos]. destruct tok; try discriminate.
    + destruct pe; [apply IH2|discriminate].
    + destruct pe; [discriminate|]. destruct f; discriminate.
Qed.

End Eof2.
