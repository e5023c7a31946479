(** The parser of statements always ends, without meeting its bounds or its assertions. *)
From Coq Require Import String.
From Verif Require Import Base Bytecode_Model Num_Model Vm_Model Ast_Model Strings_Model Lex_Model Parse_Model
  Parse_Spec Parse_Proofs Stmts_Model.
Local Open Scope nat_scope.
Local Open Scope list_scope.

(** It gives an error of the program, or leaves at most [L] tokens. *)
Definition good {A} (L : nat) (x : pres (A * toks)) : Prop :=
  match x with Ok (_, ts) => length ts <= L | Err e => e <> PFuel /\ e <> PPanic end.

Lemma good_bad : forall A L pos s, good (A:=A) L (bad pos s).
Proof. intros. split; discriminate. Qed.
Lemma good_bad_token : forall A L pos s t, good (A:=A) L (bad_token pos s t).
Proof. intros. split; discriminate. Qed.
Lemma good_lexer : forall A L pos m, good (A:=A) L (Err (PBad pos (PLexer m))).
Proof. intros. split; discriminate. Qed.
Lemma good_end_without : forall A L pos t, good (A:=A) L (end_without pos t).
Proof. intros. split; discriminate. Qed.
Lemma good_le : forall A L L' (x : pres (A * toks)), good L x -> L <= L' -> good L' x.
Proof. intros A L L' [[a ts]|e] H LE; cbn in *; [lia|exact H]. Qed.
Lemma good_then : forall A B L L' (x : pres (A * toks)) (k : A -> toks -> pres (B * toks)), good L x ->
  (forall a ts, length ts <= L -> good L' (k a ts)) -> good L' (and_then x k).
Proof. intros A B L L' [[a ts]|e] k H K; cbn in *; [apply K; exact H|exact H]. Qed.
Lemma good_ok : forall A L (a : A) ts, length ts <= L -> good L (Ok (a, ts)).
Proof. intros. exact H. Qed.

Section Eof.
Variable eof : linecol.
Local Notation peek := (peek eof).

Lemma peek_length : forall ts t p, peek ts = (t, p) -> t <> TkEof -> length (consume ts) < length ts.
Proof. intros [|[t' p'] ts] t p E X; cbn in *; [|lia]. congruence. Qed.

Lemma good_expr : forall first ts, good (length ts) (parse_expr eof first ts).
Proof.
  intros first ts. unfold parse_expr.
  assert (X : forall es ops need, good (length ts) (expr_loop eof (fuel ts) es ops need ts)).
  { intros es ops need. unfold good. destruct (expr_loop eof (fuel ts) es ops need ts) as [[o ts']|e] eqn:E.
    - exact (proj1 (loop_left eof (fuel ts)) _ _ _ _ _ _ E).
    - split; intros ->.
      + apply (proj1 (enough_fuel eof (fuel ts)) es ops need ts); [unfold fuel; lia|exact E].
      + exact (proj1 (no_panic eof (fuel ts)) _ _ _ _ E). }
  destruct first; apply X.
Qed.
Lemma good_required : forall msg ts, good (length ts) (parse_required_expr eof msg ts).
Proof.
  intros msg ts. unfold parse_required_expr. pose proof (good_expr None ts) as H.
  destruct (parse_expr eof None ts) as [[[e|] ts']|e]; [exact H|apply good_bad|exact H].
Qed.
Lemma good_args : forall ts, good (length ts) (parse_comma_separated_exprs eof ts).
Proof.
  intros ts. unfold parse_comma_separated_exprs, good.
  destruct (call_args eof (fuel ts) true [] ts) as [[o ts']|e] eqn:E.
  - exact (proj2 (loop_left eof (fuel ts)) _ _ _ _ _ E).
  - split; intros ->.
    + apply (proj2 (enough_fuel eof (fuel ts)) true [] ts); [unfold fuel; lia|exact E].
    + exact (proj2 (no_panic eof (fuel ts)) _ _ _ E).
Qed.

(** The arguments in parentheses are all there. *)
Lemma args_present : forall n f spans ts a ts', call_args eof n f spans ts = Ok (a, ts') ->
  Forall (fun x : argspan => fst (fst x) <> None) spans -> Forall (fun x : argspan => fst (fst x) <> None) a.
Proof.
  induction n as [|n IH]; intros f spans ts a ts' H F; [discriminate H|].
  rewrite call_args_S in H. unfold args_step in H.
  destruct (expr_loop eof n [] [] true ts) as [[prev ts1]|?]; [|discriminate H].
  destruct (peek ts1) as [tok pos]. destruct tok; try discriminate H.
  - destruct prev; [|discriminate H]. apply IH in H; [exact H|]. apply Forall_app. split; [exact F|].
    constructor; [discriminate|constructor].
  - destruct prev; [|destruct f; [|discriminate H]]; apply Ok_inj, pair_equal_spec in H; destruct H as [<- _].
    + apply Forall_app. split; [exact F|]. constructor; [discriminate|constructor].
    + exact F.
Qed.
Lemma exprs_present : forall a, Forall (fun x : argspan => fst (fst x) <> None) a -> exists es, exprs_of a = Ok es.
Proof.
  induction 1 as [|[[[e|] s] p] a H F [es IH]]; [exists []; reflexivity| |].
  - exists (e :: es). cbn [exprs_of]. rewrite IH. reflexivity.
  - exfalso. apply H. reflexivity.
Qed.
Lemma args_exprs : forall ts a ts', parse_comma_separated_exprs eof ts = Ok (a, ts') -> exists es, exprs_of a = Ok es.
Proof. intros ts a ts' H. apply exprs_present. eapply args_present; [exact H|constructor]. Qed.

Lemma good_expect : forall t msg ts, good (length ts) (expect eof t msg ts).
Proof. intros t msg ts. unfold expect. destruct (token_dec _ _); [apply consume_le|apply good_bad]. Qed.
Lemma good_expect_at : forall t p msg ts, good (length ts) (expect_at eof t p msg ts).
Proof. intros t p msg ts. unfold expect_at. destruct (token_dec _ _); [apply consume_le|apply good_bad]. Qed.
Lemma good_unannotated : forall v p ts, good (length ts) (unannotated v p ts).
Proof. intros v p ts. unfold unannotated. destruct (vr_type v); [apply good_bad_token|apply le_n]. Qed.

(** Bounds on the tokens left. *)
Ltac len := repeat match goal with
  | |- context [length (consume ?ts)] =>
      lazymatch goal with H : length (consume ts) <= length ts |- _ => fail | _ => pose proof (consume_le ts) end
  | H : context [length (consume ?ts)] |- _ =>
      lazymatch goal with H : length (consume ts) <= length ts |- _ => fail | _ => pose proof (consume_le ts) end
  end; lia.
Ltac done := first [apply good_bad | apply good_bad_token | apply good_lexer | apply good_end_without | apply good_ok; len].
(** One call after the other. *)
Ltac next L := eapply good_then; [apply L|]; intros ? ? ?.
Ltac tail L := eapply good_le; [apply L|len].

Lemma good_assignment : forall v p ts, good (length ts) (parse_assignment eof v p ts).
Proof. intros. unfold parse_assignment. next good_required. destruct (ends_stmt _); done. Qed.
Lemma good_array_assignment : forall v p es ts, good (length ts) (parse_array_assignment eof v p es ts).
Proof. intros. unfold parse_array_assignment. next good_required. destruct (ends_stmt _); done. Qed.

Lemma good_builtin_args : forall n first args ts, length ts < n -> good (length ts) (builtin_args eof n first args ts).
Proof.
  induction n as [|n IH]; intros first args ts H; [lia|]. cbn [builtin_args]. next good_expr.
  destruct (peek ts0) as [tok pos] eqn:P.
  destruct tok; try done; pose proof (peek_length _ _ _ P ltac:(discriminate)); (eapply good_le; [apply IH|]; len).
Qed.
Lemma good_builtin_call : forall v p first ts, good (length ts) (parse_builtin_call eof v p first ts).
Proof.
  intros. unfold parse_builtin_call. next good_unannotated.
  eapply good_then; [apply good_builtin_args; lia|]. intros. done.
Qed.
Lemma good_array_or_call : forall v p ts, good (length ts) (parse_array_or_builtin_call eof v p ts).
Proof.
  intros. unfold parse_array_or_builtin_call. destruct (peek ts) as [tok pos].
  destruct tok; try apply good_builtin_call.
  pose proof (good_args (consume ts)) as G. pose proof (args_exprs (consume ts)) as X.
  destruct (parse_comma_separated_exprs eof (consume ts)) as [[a ts']|e]; [|exact G]. cbn [and_then good] in *.
  destruct (X _ _ eq_refl) as [es ->].
  assert (Y : good (length ts) (match es with [e] => parse_builtin_call eof v p (Some e) ts' | _ => bad pos "Expected expression"%string end)).
  { destruct es as [|e [|? ?]]; try done. tail good_builtin_call. }
  destruct (fst (peek ts')); try exact Y. tail good_array_assignment.
Qed.
Lemma good_as_type : forall ts, good (length ts) (parse_as_type eof ts).
Proof. intros. unfold parse_as_type. destruct (peek ts) as [tok pos]. destruct tok; done. Qed.

Lemma good_data_values : forall n l ts, length ts < n -> good (length ts) (data_values eof n l ts).
Proof.
  induction n as [|n IH]; intros l ts H; [lia|]. cbn [data_values].
  destruct (peek ts) as [tok pos] eqn:P.
  assert (X : forall value ts1, length ts1 < length ts -> good (length ts)
     (let '(tok, pos) := peek ts1 in
        match tok with
        | TkEof | TkEol | TkElse => Ok (l ++ [Some value], ts1)
        | TkComma => data_values eof n (l ++ [Some value]) (consume ts1)
        | _ => bad_token pos "Expected comma after datum but found {}" tok
        end)).
  { intros value ts1 L1. destruct (peek ts1) as [tok1 pos1]. destruct tok1; try done.
    eapply good_le; [apply IH|]; len. }
  destruct tok; try done; pose proof (peek_length _ _ _ P ltac:(discriminate)); try (apply X; len).
  - eapply good_le; [apply IH|]; len.
  - destruct (fst (peek (consume ts))); try done; apply X; len.
Qed.
Lemma good_data : forall ts, good (length ts) (parse_data eof ts).
Proof. intros. unfold parse_data. eapply good_then; [apply good_data_values; lia|]. intros. done. Qed.

Lemma good_dim_as : forall ts, good (length ts) (parse_dim_as eof ts).
Proof.
  intros. unfold parse_dim_as. destruct (peek ts) as [tok pos].
  eapply good_then with (L := length ts).
  - destruct tok; try done. tail good_as_type.
  - intros. destruct (ends_line _); done.
Qed.
Lemma good_dim : forall ts, good (length ts) (parse_dim eof ts).
Proof.
  intros. unfold parse_dim.
  assert (X : forall sh ts1, length ts1 <= length ts -> good (length ts)
   (let '(tok, pos) := peek ts1 in
    match tok with
    | TkSymbol v =>
        get name, ts <- unannotated v pos (consume ts1);
        let '(tok2, pos2) := peek ts in
        match tok2 with
        | TkLeftParen =>
            get dims, ts <- parse_comma_separated_exprs eof (consume ts);
            match dims with
            | [] => bad pos2 "Arrays require at least one dimension"
            | _ =>
                get t, ts <- parse_dim_as eof ts;
                match exprs_of dims with
                | Ok es => Ok (StDimArray name pos sh es t, ts)
                | Err x => Err x
                end
            end
        | _ => get t, ts <- parse_dim_as eof ts; Ok (StDim name pos sh t, ts)
        end
    | _ => bad pos "Expected variable name after DIM"
    end)).
  { intros sh ts1 L1. destruct (peek ts1) as [tok pos]. destruct tok; try done. next good_unannotated.
    destruct (peek ts0) as [tok2 pos2].
    assert (Y : good (length ts) (get t, ts <- parse_dim_as eof ts0; Ok (StDim a pos sh t, ts))).
    { next good_dim_as. done. }
    destruct tok2; try exact Y.
    pose proof (good_args (consume ts0)) as G. pose proof (args_exprs (consume ts0)) as X.
    destruct (parse_comma_separated_exprs eof (consume ts0)) as [[ar ts']|e]; [|exact G]. cbn [and_then good] in *.
    destruct (X _ _ eq_refl) as [es ->]. destruct ar; [done|]. next good_dim_as. done. }
  pose proof (X true (consume ts) (consume_le ts)) as X1. pose proof (X false ts (le_n _)) as X2.
  destruct (fst (peek ts)); assumption.
Qed.
Lemma good_do_guard : forall part ts, good (length ts) (parse_do_guard eof part ts).
Proof. intros. unfold parse_do_guard. destruct (peek ts) as [tok pos]. destruct tok; try done; next good_required; done. Qed.
Lemma good_maybe_end : forall pos ts, good (length ts) (maybe_parse_end eof pos ts).
Proof.
  intros. unfold maybe_parse_end.
  assert (X : good (length ts) (get code, ts <- parse_expr eof None ts; Ok (inl (B:=token) (StEnd code pos), ts))) by (next good_expr; done).
  destruct (fst (peek ts)); try exact X; done.
Qed.
Lemma good_end : forall pos ts, good (length ts) (parse_end eof pos ts).
Proof. intros. unfold parse_end. next good_maybe_end. destruct a; done. Qed.
Lemma good_exit : forall pos ts, good (length ts) (parse_exit eof pos ts).
Proof. intros. unfold parse_exit. destruct (fst (peek ts)); done. Qed.
Lemma good_gosub : forall ts, good (length ts) (parse_gosub eof ts).
Proof. intros. unfold parse_gosub. destruct (peek ts) as [tok pos]. destruct tok; done. Qed.
Lemma good_goto : forall ts, good (length ts) (parse_goto eof ts).
Proof. intros. unfold parse_goto. destruct (peek ts) as [tok pos]. destruct tok; done. Qed.
Lemma good_on : forall pos ts, good (length ts) (parse_on eof pos ts).
Proof.
  intros. unfold parse_on. next good_expect. destruct (peek ts0) as [tok p]. destruct tok; try done.
  - cbv zeta. destruct (peek (consume ts0)) as [tok q]. destruct tok; try done. destruct z; done.
  - next good_expect. done.
Qed.
Lemma good_symbol : forall v pos ts, good (length ts) (parse_symbol eof v pos ts).
Proof.
  intros. unfold parse_symbol. pose proof (good_array_or_call v pos ts) as X.
  destruct (fst (peek ts)); try exact X. tail good_assignment.
Qed.
Lemma good_uniline : forall ts, good (length ts) (parse_uniline eof ts).
Proof.
  intros. unfold parse_uniline. destruct (peek ts) as [tok pos].
  destruct tok; try done.
  all: first [next good_data; done | next good_end; done | next good_exit; done | next good_gosub; done | next good_goto; done
    | next good_on; done | next good_symbol; done].
Qed.
(** Nothing but the end of a line is read as no statement. *)
Lemma uniline_some : forall ts ts', parse_uniline eof ts = Ok (None, ts') -> fst (peek ts) = TkEol \/ fst (peek ts) = TkEof.
Proof.
  intros ts ts'. unfold parse_uniline. destruct (peek ts) as [tok pos]. cbv zeta.
  assert (X : forall x : pres (stmt * toks), (get st, ts <- x; Ok (Some st, ts)) <> Ok (None, ts')) by (intros [[? ?]|?]; discriminate).
  destruct tok; cbn [fst]; auto; intros H; try discriminate H; exfalso; exact (X _ H).
Qed.
Lemma good_if_uniline : forall e ts, fst (peek ts) <> TkEol -> fst (peek ts) <> TkEof ->
  good (length ts) (parse_if_uniline eof e ts).
Proof.
  intros e ts N1 N2. unfold parse_if_uniline.
  eapply good_then with (L := length ts).
  - assert (X : good (length ts) (get o, ts <- parse_uniline eof ts; match o with Some st => Ok ([st], ts) | None => Err PPanic end)).
    { pose proof (good_uniline ts) as G. destruct (parse_uniline eof ts) as [[[st|] ts']|x] eqn:E; [exact G| |exact G].
      apply uniline_some in E. tauto. }
    destruct (fst (peek ts)); try exact X. done.
  - intros. destruct (fst (peek ts0)); try done. next good_uniline. done.
Qed.
Lemma good_step : forall p ts, good (length ts) (parse_step eof p ts).
Proof.
  intros. unfold parse_step. destruct (fst (peek ts)); try done. destruct (peek (consume ts)) as [tok q].
  destruct tok; try done. destruct (peek (consume (consume ts))) as [tok r]. destruct tok; done.
Qed.
Lemma good_params : forall n l ts, length ts < n -> good (length ts) (callable_params eof n l ts).
Proof.
  induction n as [|n IH]; intros l ts H; [lia|]. cbn [callable_params].
  destruct (peek ts) as [tok pos] eqn:P. destruct tok; try done.
  pose proof (peek_length _ _ _ P ltac:(discriminate)).
  eapply good_then with (L := length (consume ts)).
  - destruct (fst (peek (consume ts))); try done. next good_unannotated. next good_as_type. done.
  - intros. destruct (fst (peek ts0)); try done. eapply good_le; [apply IH|]; len.
Qed.
Lemma good_callable_args : forall ts, good (length ts) (parse_callable_args eof ts).
Proof.
  intros. unfold parse_callable_args. destruct (fst (peek ts)); try done.
  eapply good_le; [apply good_params|]; len.
Qed.
Lemma good_signature : forall d f ts, good (length ts) (parse_callable_signature eof d f ts).
Proof.
  intros. unfold parse_callable_signature. destruct (peek ts) as [tok pos].
  eapply good_then with (L := length ts).
  - destruct tok; try done. destruct (vr_type v); destruct f; done.
  - intros. next good_callable_args. cbv zeta. destruct (match fst (peek ts1) with TkEol => true | TkEof => d | _ => false end); done.
Qed.
Lemma good_declare : forall ts, good (length ts) (parse_declare eof ts).
Proof.
  intros. unfold parse_declare. destruct (peek ts) as [tok pos].
  eapply good_then with (L := length ts).
  - destruct tok; try done; tail good_signature.
  - intros [[? ?] ?] ? ?. done.
Qed.
Lemma good_case_value : forall ts, good (length ts) (case_value eof ts).
Proof. intros. unfold case_value. next good_required. destruct (fst (peek ts0)); try done. next good_required. done. Qed.
Lemma good_case_is : forall ts, good (length ts) (case_is eof ts).
Proof. intros. unfold case_is. destruct (relop_of _); [|done]. next good_required. done. Qed.
Lemma good_case_next : forall again l ts L, (forall l ts', length ts' < length ts -> good L (again l ts')) -> length ts <= L ->
  good L (case_next eof again l ts).
Proof.
  intros again l ts L H LE. unfold case_next. destruct (peek ts) as [tok pos] eqn:P. cbn [fst snd].
  destruct tok; try done. apply H. exact (peek_length _ _ _ P ltac:(discriminate)).
Qed.
Lemma good_case_guards : forall n l ts, length ts < n -> good (length ts) (case_guards eof n l ts).
Proof.
  induction n as [|n IH]; intros l ts H; [lia|]. cbn [case_guards].
  assert (X : forall (c : pres (case_guard * toks)) L, good L c -> L <= length ts ->
     good (length ts) (get g, ts <- c; case_next eof (case_guards eof n) (l ++ [g]) ts)).
  { intros c L G LE. eapply good_then; [exact G|]. intros g ts1 L1. apply good_case_next; [|lia].
    intros l' ts' L'. eapply good_le; [apply IH|]; lia. }
  pose proof (X _ _ (good_case_value ts) (le_n _)) as V.
  destruct (fst (peek ts)); try exact V.
  - destruct l; [|done]. cbv zeta. destruct (ends_line _); done.
  - eapply X; [apply good_case_is|len].
Qed.

(** The parser of one statement, on at most [L] tokens. *)
Definition good_one (L : nat) (one : toks -> pres (option stmt * toks)) : Prop := forall ts, length ts <= L ->
  match one ts with
  | Ok (Some _, ts') => length ts' < length ts
  | Ok (None, ts') => length ts' <= length ts /\ fst (peek ts') = TkEof
  | Err e => e <> PFuel /\ e <> PPanic
  end.

Section One.
Variable one : toks -> pres (option stmt * toks).
Variable L : nat.
Hypothesis ONE : good_one L one.

(** What follows a statement, or the end of the file. *)
Lemma one_then : forall B (k : option stmt -> toks -> pres (B * toks)) ts L', length ts <= L ->
  (forall st ts', length ts' < length ts -> good L' (k (Some st) ts')) ->
  (forall ts', length ts' <= length ts -> fst (peek ts') = TkEof -> good L' (k None ts')) ->
  good L' (and_then (one ts) k).
Proof.
  intros B k ts L' LE H1 H2. pose proof (ONE ts LE) as G. destruct (one ts) as [[[st|] ts']|e]; cbn [and_then].
  - apply H1. exact G.
  - apply H2; apply G.
  - exact G.
Qed.

Lemma good_until : forall n delim l ts, length ts < n -> length ts <= L -> good (length ts) (until eof one n delim l ts).
Proof.
  induction n as [|n IH]; intros delim l ts H LE; [lia|]. cbn [until].
  destruct (token_dec _ _); [done|].
  assert (X : good (length ts) (get o, ts <- one ts;
            match o with Some st => until eof one n delim (l ++ [st]) ts | None => Ok (l, ts) end)).
  { apply one_then; [exact LE| |]; intros; [|done]. eapply good_le; [apply IH|]; lia. }
  destruct (peek ts) as [tok pos] eqn:P. cbn [fst]. destruct tok; try exact X.
  pose proof (peek_length _ _ _ P ltac:(discriminate)). eapply good_le; [apply IH|]; lia.
Qed.
Lemma good_parse_until : forall delim ts, length ts <= L -> good (length ts) (parse_until eof one delim ts).
Proof. intros. apply good_until; lia. Qed.

Lemma good_do : forall p ts, length ts <= L -> good (length ts) (parse_do eof one p ts).
Proof.
  intros. unfold parse_do. next good_do_guard. next good_expect.
  eapply good_then; [apply good_parse_until; lia|]. intros ? ? ?.
  next good_expect_at. next good_do_guard.
  destruct a as [[? []]|]; destruct a3 as [[? []]|]; done.
Qed.
Lemma good_while : forall p ts, length ts <= L -> good (length ts) (parse_while eof one p ts).
Proof.
  intros. unfold parse_while. next good_required. next good_expect.
  eapply good_then; [apply good_parse_until; lia|]. intros ? ? ?.
  next good_expect_at. done.
Qed.
Lemma good_for : forall p ts, length ts <= L -> good (length ts) (parse_for eof one p ts).
Proof.
  intros p ts LE. unfold parse_for. destruct (peek ts) as [tok pos]. destruct tok; try done.
  pose proof (consume_le ts) as CL.
  assert (X : good (length ts) (
          get _p, ts <- expect eof TkEqual "No equal sign in FOR statement" (consume ts);
          get start, ts <- parse_required_expr eof "No start expression in FOR statement" ts;
          get to_pos, ts <- expect eof TkTo "No TO in FOR statement" ts;
          get end_, ts <- parse_required_expr eof "No end expression in FOR statement" ts;
          get st, ts <- parse_step eof p ts;
          let '(step, sign, iter_double) := st in
          match sign with
          | Eq => bad (start_pos step) "Infinite FOR loop; STEP cannot be 0"
          | _ =>
              let condition := EBinary (match sign with Gt => BLessEqual | _ => BGreaterEqual end)
                                 (ESymbol v pos) end_ to_pos in
              let next := EBinary BAdd (ESymbol v pos) step to_pos in
              get _p, ts <- expect eof TkEol "Expecting newline after FOR" ts;
              get body, ts <- parse_until eof one TkNext ts;
              get _u, ts <- expect_at eof TkNext p "FOR without NEXT" ts;
              Ok (StFor v pos iter_double start condition next body, ts)
          end)).
  { next good_expect. next good_required. next good_expect. next good_required. next good_step.
    destruct a3 as [[s sg] dbl]. cbv zeta.
    assert (Y : forall cond, good (length ts) (
       get _p, ts <- expect eof TkEol "Expecting newline after FOR" ts4;
              get body, ts <- parse_until eof one TkNext ts;
              get _u, ts <- expect_at eof TkNext p "FOR without NEXT" ts;
              Ok (StFor v pos dbl a0 cond (EBinary BAdd (ESymbol v pos) s a1) body, ts))).
    { intros cond. next good_expect.
      eapply good_then with (L := length ts5); [apply good_parse_until; lia|]. intros ? ? ?. next good_expect_at. done. }
    destruct sg; [done|apply Y|apply Y]. }
  destruct (vr_type v) as [[]|]; try done; exact X.
Qed.

Lemma good_if_multiline : forall n p done g body last ts, length ts < n -> length ts <= L ->
  good (length ts) (if_multiline eof one n p done g body last ts).
Proof.
  induction n as [|n IH]; intros p dn g body last ts H LE; [lia|]. cbn [if_multiline].
  assert (F : forall body ts1, length ts1 <= length ts ->
    good (length ts) (get _u, ts0 <- expect_at eof TkIf p "IF without END IF" ts1; Ok (dn ++ [(g, body)], ts0))).
  { intros. next good_expect_at. done. }
  destruct (peek ts) as [tok pos] eqn:P.
  assert (X : good (length ts) (get o, ts <- one ts;
          match o with
          | Some st => if_multiline eof one n p dn g (body ++ [st]) last ts
          | None => get _u, ts0 <- expect_at eof TkIf p "IF without END IF" ts; Ok (dn ++ [(g, body)], ts0)
          end)).
  { apply one_then; [exact LE| |]; intros; [|apply F; assumption]. eapply good_le; [apply IH|]; lia. }
  destruct tok; try exact X; pose proof (peek_length _ _ _ P ltac:(discriminate)).
  - eapply good_le; [apply IH|]; lia.
  - destruct last; [done|]. next good_expect. eapply good_le; [apply IH|]; lia.
  - destruct last; [done|]. next good_required. next good_expect. next good_expect. eapply good_le; [apply IH|]; lia.
  - next good_maybe_end. destruct a as [st|t]; [eapply good_le; [apply IH|]; lia|].
    destruct t; try done. apply F. lia.
Qed.
Lemma good_if : forall p ts, length ts <= L -> good (length ts) (parse_if eof one p ts).
Proof.
  intros p ts LE. unfold parse_if. next good_required. next good_expect.
  eapply good_then with (L := length ts1); [|intros; done].
  pose proof (good_if_multiline (S (length ts1)) p [] a [] false ts1 ltac:(lia) ltac:(lia)) as M.
  pose proof (good_if_uniline a ts1) as U.
  destruct (fst (peek ts1)); try exact M; apply U; discriminate.
Qed.

Lemma good_callable_body : forall n p f body ts, length ts < n -> length ts <= L ->
  good (length ts) (callable_body eof one n p f body ts).
Proof.
  induction n as [|n IH]; intros p f body ts H LE; [lia|]. cbn [callable_body]. cbv zeta.
  destruct (peek ts) as [tok pos] eqn:P.
  assert (X : forall s, good (length ts) (get o, ts <- one ts;
          match o with
          | Some st => callable_body eof one n p f (body ++ [st]) ts
          | None => bad p s
          end)).
  { intros s. apply one_then; [exact LE| |]; intros; [|done]. eapply good_le; [apply IH|]; lia. }
  destruct tok; try apply X; try (pose proof (peek_length _ _ _ P ltac:(discriminate))).
  - next good_expect_at. done.
  - eapply good_le; [apply IH|]; lia.
  - next good_maybe_end. destruct a as [st|t]; [eapply good_le; [apply IH|]; lia|].
    destruct (token_dec _ _); [|done]. next good_expect_at. done.
  - done.
  - done.
Qed.
Lemma good_callable : forall f p ts, length ts <= L -> good (length ts) (parse_callable eof one f p ts).
Proof.
  intros. unfold parse_callable. next good_signature. destruct a as [[? ?] ?].
  eapply good_then with (L := length ts0); [apply good_callable_body; lia|]. intros. done.
Qed.

Lemma good_select_cases : forall n p done cur last ts, length ts < n -> length ts <= L ->
  good (length ts) (select_cases eof one n p done cur last ts).
Proof.
  assert (A : forall n p dn cur last ts, 0 < n -> fst (peek ts) = TkEof -> good (length ts) (select_cases eof one n p dn cur last ts)).
  { intros [|n] p dn cur last ts N0 E; [lia|]. cbn [select_cases]. cbv zeta.
    destruct (peek ts) as [tok pos]. cbn [fst] in E. subst tok. next good_expect_at. done. }
  induction n as [|n IH]; intros p dn cur last ts H LE; [lia|]. cbn [select_cases]. cbv zeta.
  destruct (peek ts) as [tok pos] eqn:P.
  assert (X : tok <> TkEof -> good (length ts) (match cur with
          | None => bad pos "Expected CASE after SELECT CASE before any statement"
          | Some _ => get o, ts0 <- one ts;
              match o with
              | Some st => match cur with
                 | Some (gs, body) => select_cases eof one n p dn (Some (gs, body ++ [st])) last ts0
                 | None => Err PPanic
                 end
              | None => select_cases eof one n p dn cur last ts0
              end
          end)).
  { intros NE. pose proof (peek_length _ _ _ P NE) as CL. destruct cur as [[gs b]|]; [|done]. apply one_then; [exact LE| |]; intros.
    - eapply good_le; [apply IH|]; lia.
    - eapply good_le; [apply A|]; [lia|assumption|assumption]. }
  destruct tok; try (apply X; discriminate); try (pose proof (peek_length _ _ _ P ltac:(discriminate))).
  - next good_expect_at. done.
  - eapply good_le; [apply IH|]; lia.
  - eapply good_then with (L := length (consume ts)); [unfold parse_case_guards; apply good_case_guards; lia|]. intros.
    next good_expect. destruct last; [done|]. eapply good_le; [apply IH|]; lia.
  - next good_maybe_end. destruct a as [st|t].
    + destruct cur as [[gs b]|]; [|done]. eapply good_le; [apply IH|]; lia.
    + assert (Y : good (length ts) (match cur with None => bad pos "Expected CASE after SELECT CASE before any statement"
         | Some _ => end_without (A := (list (list case_guard * list stmt) * linecol) * toks) pos t end)) by (destruct cur; done).
      destruct t; try exact Y. next good_expect_at. done.
Qed.
Lemma good_select : forall p ts, length ts <= L -> good (length ts) (parse_select eof one p ts).
Proof.
  intros. unfold parse_select. next good_expect. next good_required. next good_expect.
  eapply good_then with (L := length ts2); [apply good_select_cases; lia|]. intros. done.
Qed.

Lemma good_keyword : forall tok pos ts, length ts <= L -> good (length ts) (parse_keyword eof one tok pos ts).
Proof.
  intros tok pos ts LE. destruct tok; cbn [parse_keyword]; try done.
  all: first [apply good_data | apply good_declare | apply good_dim | apply good_do; exact LE | apply good_end | apply good_exit
    | apply good_if; exact LE | apply good_for; exact LE | apply good_callable; exact LE | apply good_gosub | apply good_goto
    | apply good_on | apply good_select; exact LE | apply good_symbol | apply good_while; exact LE].
Qed.
End One.

Lemma skip_eols_le : forall ts, length (skip_eols ts) <= length ts.
Proof.
  induction ts as [|[t p] ts IH]; [apply le_n|]. destruct t; try apply le_n. cbn [skip_eols length]. lia.
Qed.

Lemma good_parse_one : forall n L, L < n -> good_one L (parse_one eof n).
Proof.
  induction n as [|n IH]; intros L H; [lia|]. intros ts LE. cbn [parse_one]. unfold one_step.
  pose proof (skip_eols_le ts) as SL. destruct (peek (skip_eols ts)) as [tok pos] eqn:P.
  assert (X : tok <> TkEof -> match (get st, ts <- parse_keyword eof (parse_one eof n) tok pos (consume (skip_eols ts));
      let '(tok, pos) := peek ts in
      match tok with
      | TkEof => Ok (Some st, ts)
      | TkEol => Ok (Some st, consume ts)
      | _ => bad_token pos "Expected newline but found {}" tok
      end) with
      | Ok (Some _, ts') => length ts' < length ts
      | Ok (None, ts') => length ts' <= length ts /\ fst (peek ts') = TkEof
      | Err e => e <> PFuel /\ e <> PPanic
      end).
  { intros NE. pose proof (peek_length _ _ _ P NE) as CL.
    assert (IH' : good_one (length (consume (skip_eols ts))) (parse_one eof n)) by (apply IH; lia).
    pose proof (good_keyword _ _ IH' tok pos (consume (skip_eols ts)) (le_n _)) as G.
    destruct (parse_keyword eof (parse_one eof n) tok pos (consume (skip_eols ts))) as [[st ts1]|e]; [|exact G].
    cbn [and_then good] in *. destruct (peek ts1) as [tok1 pos1].
    destruct tok1; try (split; discriminate); [lia|]. pose proof (consume_le ts1). lia. }
  destruct tok; try (apply X; discriminate).
  - rewrite P. split; [lia|reflexivity].
  - pose proof (peek_length _ _ _ P ltac:(discriminate)). lia.
  - pose proof (peek_length _ _ _ P ltac:(discriminate)). lia.
Qed.

Theorem parse_all_total : forall n ts, length ts < n ->
  snd (parse_all eof n ts) <> Some PFuel /\ snd (parse_all eof n ts) <> Some PPanic.
Proof.
  induction n as [|n IH]; intros ts H; [lia|]. cbn [parse_all].
  pose proof (good_parse_one (S (length ts)) (length ts) ltac:(lia) ts (le_n _)) as G.
  destruct (parse_one eof (S (length ts)) ts) as [[[st|] ts']|e].
  - specialize (IH ts' ltac:(lia)). destruct (parse_all eof n ts') as [l e]. exact IH.
  - split; discriminate.
  - cbn [snd]. split; intros E; inversion E; subst; tauto.
Qed.

End Eof.
