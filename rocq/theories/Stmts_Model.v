(** The parser of statements (core/src/parser.rs).

    As in [Parse_Model], the parser works on the list of tokens that the lexer gives, followed by
    the end of file at [eof].  A parser takes the tokens still to read and gives its result and the
    tokens that are left, or an error.

    The code recovers after an error (the [reset] functions, 663-685, 1179-1194, 1321-1335,
    1533-1551, 1787-1806, 1820-1834, 1993-2007) so that the iterator over the statements can go on.
    The compiler stops at the first error (compiler/top.rs 1331-1333), so what comes after it is not
    modelled.  The error itself is the one raised first; the code may report another in its place,
    "IF without END IF" or "SELECT without END SELECT", when the recovery meets another END. *)
From Coq Require Import String.
From Verif Require Import Base Bytecode_Model Num_Model Vm_Model Ast_Model Strings_Model Lex_Model Parse_Model.
Local Open Scope string_scope.
Local Open Scope nat_scope.
Local Open Scope list_scope.

Definition token_dec : forall a b : token, {a = b} + {a <> b}.
Proof.
  assert (N' : forall a b : N, {a = b} + {a <> b}) by apply N.eq_dec.
  assert (Z' : forall a b : Z, {a = b} + {a <> b}) by apply Z.eq_dec.
  assert (U : forall a b : list N, {a = b} + {a <> b}) by (apply list_eq_dec; exact N').
  assert (E : forall a b : etype, {a = b} + {a <> b}) by decide equality.
  assert (V : forall a b : varref, {a = b} + {a <> b}) by (decide equality; decide equality).
  assert (B : forall a b : bool, {a = b} + {a <> b}) by decide equality.
  assert (M : forall a b : lex_msg, {a = b} + {a <> b}) by (decide equality).
  decide equality.
Defined.

(** An error whose message shows a token. *)
Definition bad_token {A} (pos : linecol) (s : string) (t : token) : pres A :=
  Err (PBad pos (PShows (u s) t)).

(** The [?] of the code. *)
Definition and_then {A B} (x : pres (A * toks)) (k : A -> toks -> pres B) : pres B :=
  match x with Ok (a, ts) => k a ts | Err e => Err e end.
Notation "'get' a , ts <- x ; k" := (and_then x (fun a ts => k))
  (at level 200, a name, ts name, x at level 100, k at level 200, right associativity).

(** parser.rs 49-54. *)
Definition unannotated (v : varref) (pos : linecol) (ts : toks) : pres (ustr * toks) :=
  match vr_type v with
  | None => Ok (vr_name v, ts)
  | Some _ => bad_token pos "Type annotation not allowed in " (TkSymbol v)
  end.

(** parser.rs 58-72, and 407: the expressions of arguments, all of which must be present. *)
Fixpoint exprs_of (spans : list argspan) : pres (list expr) :=
  match spans with
  | [] => Ok []
  | (Some e, _, _) :: r => match exprs_of r with Ok l => Ok (e :: l) | Err x => Err x end
  | (None, _, _) :: _ => Err PPanic
  end.

(** The tokens that end a statement that can stand in a one-line IF. *)
Definition ends_stmt (t : token) : bool :=
  match t with TkEof | TkEol | TkElse => true | _ => false end.
Definition ends_line (t : token) : bool := match t with TkEof | TkEol => true | _ => false end.

Section Eof.
Variable eof : linecol.
Local Notation peek := (peek eof).
Local Notation parse_expr := (parse_expr eof).
Local Notation parse_required_expr := (parse_required_expr eof).
Local Notation parse_comma_separated_exprs := (parse_comma_separated_exprs eof).

(** parser.rs 277-283 and 288-300. *)
Definition expect (t : token) (msg : string) (ts : toks) : pres (linecol * toks) :=
  if token_dec (fst (peek ts)) t then Ok (snd (peek ts), consume ts) else bad (snd (peek ts)) msg.
Definition expect_at (t : token) (pos : linecol) (msg : string) (ts : toks) : pres (unit * toks) :=
  if token_dec (fst (peek ts)) t then Ok (tt, consume ts) else bad pos msg.

(** parser.rs 322-331. *)
Definition parse_assignment (v : varref) (vpos : linecol) (ts : toks) : pres (stmt * toks) :=
  get e, ts <- parse_required_expr "Missing expression in assignment" ts;
  if ends_stmt (fst (peek ts)) then Ok (StAssignment v vpos e, ts)
  else bad_token (snd (peek ts)) "Unexpected {} in assignment" (fst (peek ts)).

(** parser.rs 335-349. *)
Definition parse_array_assignment (v : varref) (vpos : linecol) (subs : list expr) (ts : toks)
    : pres (stmt * toks) :=
  get e, ts <- parse_required_expr "Missing expression in array assignment" ts;
  if ends_stmt (fst (peek ts)) then Ok (StArrayAssignment v vpos subs e, ts)
  else bad_token (snd (peek ts)) "Unexpected {} in array assignment" (fst (peek ts)).

(** parser.rs 361-392: the arguments of a command. *)
Fixpoint builtin_args (n : nat) (first : option expr) (args : list argspan) (ts : toks)
    : pres (list argspan * toks) :=
  match n with
  | O => Err PFuel
  | S n' =>
      get o, ts <- parse_expr first ts;
      let '(tok, pos) := peek ts in
      match tok with
      | TkEof | TkEol | TkElse =>
          Ok (match o, args with None, [] => [] | _, _ => args ++ [(o, SepEnd, pos)] end, ts)
      | TkSemicolon => builtin_args n' None (args ++ [(o, SepShort, pos)]) (consume ts)
      | TkComma => builtin_args n' None (args ++ [(o, SepLong, pos)]) (consume ts)
      | TkAs => builtin_args n' None (args ++ [(o, SepAs, pos)]) (consume ts)
      | _ => bad pos "Expected comma, semicolon, or end of statement"
      end
  end.

(** parser.rs 352-394. *)
Definition parse_builtin_call (v : varref) (vpos : linecol) (first : option expr) (ts : toks)
    : pres (stmt * toks) :=
  get name, ts <- unannotated v vpos ts;
  get args, ts <- builtin_args (S (length ts)) first [] ts;
  Ok (StCall (mkVarRef (ascii_upper name) None) vpos args, ts).

(** parser.rs 398-426. *)
Definition parse_array_or_builtin_call (v : varref) (vpos : linecol) (ts : toks) : pres (stmt * toks) :=
  let '(tok, pos) := peek ts in
  match tok with
  | TkLeftParen =>
      get spans, ts <- parse_comma_separated_exprs (consume ts);
      match exprs_of spans with
      | Err x => Err x
      | Ok exprs =>
          match fst (peek ts) with
          | TkEqual => parse_array_assignment v vpos exprs (consume ts)
          | _ =>
              match exprs with
              | [e] => parse_builtin_call v vpos (Some e) ts
              | _ => bad pos "Expected expression"
              end
          end
      end
  | _ => parse_builtin_call v vpos None ts
  end.

(** parser.rs 432-444. *)
Definition parse_as_type (ts : toks) : pres (etype * toks) :=
  let '(tok, pos) := peek ts in
  match tok with
  | TkBooleanName => Ok (TBoolean, consume ts)
  | TkDoubleName => Ok (TDouble, consume ts)
  | TkIntegerName => Ok (TInteger, consume ts)
  | TkTextName => Ok (TText, consume ts)
  | _ => bad_token pos "Invalid type name {} in AS type definition" tok
  end.

(** parser.rs 448-528.  The negation of the least integer, which can only be written in base 16 or
    2, is the least integer in a release build, as here, and panics in a debug build. *)
Fixpoint data_values (n : nat) (values : list (option expr)) (ts : toks)
    : pres (list (option expr) * toks) :=
  match n with
  | O => Err PFuel
  | S n' =>
      let '(tok, pos) := peek ts in
      let ts1 := consume ts in
      let after (value : expr) (ts : toks) :=
        let '(tok, pos) := peek ts in
        match tok with
        | TkEof | TkEol | TkElse => Ok (values ++ [Some value], ts)
        | TkComma => data_values n' (values ++ [Some value]) (consume ts)
        | _ => bad_token pos "Expected comma after datum but found {}" tok
        end in
      match tok with
      | TkEof | TkEol | TkElse => Ok (values ++ [None], ts)
      | TkBoolean b => after (EBoolean b pos) ts1
      | TkDouble d => after (EDouble d pos) ts1
      | TkInteger z => after (EInteger z pos) ts1
      | TkText s => after (EText s pos) ts1
      | TkMinus =>
          match fst (peek ts1) with
          | TkDouble d => after (EDouble (f64_neg d) pos) (consume ts1)
          | TkInteger z => after (EInteger (wrap_i32 (- z)) pos) (consume ts1)
          | _ => bad pos "Expected number after -"
          end
      | TkComma => data_values n' (values ++ [None]) ts1
      | _ => bad_token pos "Unexpected {} in DATA statement" tok
      end
  end.
(** parser.rs 447-530. *)
Definition parse_data (ts : toks) : pres (stmt * toks) :=
  get values, ts <- data_values (S (length ts)) [] ts; Ok (StData values, ts).

(** parser.rs 534-552. *)
Definition parse_dim_as (ts : toks) : pres (etype * toks) :=
  let '(tok, pos) := peek ts in
  get t, ts <- (match tok with
                | TkEof | TkEol => Ok (TInteger, ts)
                | TkAs => parse_as_type (consume ts)
                | _ => bad pos "Expected AS or end of statement"
                end);
  if ends_line (fst (peek ts)) then Ok (t, ts)
  else bad_token (snd (peek ts)) "Unexpected {} in DIM statement" (fst (peek ts)).

(** parser.rs 555-603. *)
Definition parse_dim (ts : toks) : pres (stmt * toks) :=
  let '(shared, ts) := match fst (peek ts) with TkShared => (true, consume ts) | _ => (false, ts) end in
  let '(tok, pos) := peek ts in
  match tok with
  | TkSymbol v =>
      get name, ts <- unannotated v pos (consume ts);
      let '(tok2, pos2) := peek ts in
      match tok2 with
      | TkLeftParen =>
          get dims, ts <- parse_comma_separated_exprs (consume ts);
          match dims with
          | [] => bad pos2 "Arrays require at least one dimension"
          | _ =>
              get t, ts <- parse_dim_as ts;
              match exprs_of dims with
              | Ok es => Ok (StDimArray name pos shared es t, ts)
              | Err x => Err x
              end
          end
      | _ => get t, ts <- parse_dim_as ts; Ok (StDim name pos shared t, ts)
      end
  | _ => bad pos "Expected variable name after DIM"
  end.

(** parser.rs 611-633. *)
Definition parse_do_guard (part : string) (ts : toks) : pres (option (expr * bool) * toks) :=
  let '(tok, pos) := peek ts in
  match tok with
  | TkUntil =>
      get e, ts <- parse_required_expr "No expression in UNTIL clause" (consume ts);
      Ok (Some (e, true), ts)
  | TkWhile =>
      get e, ts <- parse_required_expr "No expression in WHILE clause" (consume ts);
      Ok (Some (e, false), ts)
  | TkEof | TkEol => Ok (None, ts)
  | _ => bad pos ("Expecting newline, UNTIL or WHILE after " ++ part)
  end.

(** parser.rs 689-700: an END statement, or the token after END. *)
Definition maybe_parse_end (pos : linecol) (ts : toks) : pres ((stmt + token) * toks) :=
  match fst (peek ts) with
  | TkFunction => Ok (inr TkFunction, ts)
  | TkIf => Ok (inr TkIf, ts)
  | TkSelect => Ok (inr TkSelect, ts)
  | TkSub => Ok (inr TkSub, ts)
  | _ => get code, ts <- parse_expr None ts; Ok (inl (StEnd code pos), ts)
  end.
(** parser.rs 703-708. *)
Definition end_without {A} (pos : linecol) (t : token) : pres A := bad_token pos "END {} without {}" t.
Definition parse_end (pos : linecol) (ts : toks) : pres (stmt * toks) :=
  get r, ts <- maybe_parse_end pos ts;
  match r with inl st => Ok (st, ts) | inr t => end_without pos t end.

(** parser.rs 711-727. *)
Definition parse_exit (pos : linecol) (ts : toks) : pres (stmt * toks) :=
  match fst (peek ts) with
  | TkDo => Ok (StExitDo pos, consume ts)
  | TkFor => Ok (StExitFor pos, consume ts)
  | TkFunction => Ok (StExitFunction pos, consume ts)
  | TkSub => Ok (StExitSub pos, consume ts)
  | _ => bad (snd (peek ts)) "Expecting DO, FOR, FUNCTION or SUB after EXIT"
  end.

(** parser.rs 1022-1049. *)
Definition parse_gosub (ts : toks) : pres (stmt * toks) :=
  let '(tok, pos) := peek ts in
  match tok with
  | TkInteger z => Ok (StGosub (to_string z) pos, consume ts)
  | TkLabel target => Ok (StGosub target pos, consume ts)
  | _ => bad pos "Expected label name after GOSUB"
  end.
Definition parse_goto (ts : toks) : pres (stmt * toks) :=
  let '(tok, pos) := peek ts in
  match tok with
  | TkInteger z => Ok (StGoto (to_string z) pos, consume ts)
  | TkLabel target => Ok (StGoto target pos, consume ts)
  | _ => bad pos "Expected label name after GOTO"
  end.

(** parser.rs 1554-1585. *)
Definition parse_on (pos : linecol) (ts : toks) : pres (stmt * toks) :=
  get _p, ts <- expect TkError "Expected ERROR after ON" ts;
  let '(tok, p) := peek ts in
  match tok with
  | TkGoto =>
      let ts := consume ts in
      let '(tok, p) := peek ts in
      match tok with
      | TkInteger 0%Z => Ok (StOnError (OnReset pos), consume ts)
      | TkInteger z => Ok (StOnError (OnGoto (to_string z) p pos), consume ts)
      | TkLabel target => Ok (StOnError (OnGoto target p pos), consume ts)
      | _ => bad p "Expected label name or 0 after ON ERROR GOTO"
      end
  | TkResume =>
      get _p, ts <- expect TkNext "Expected NEXT after ON ERROR RESUME" (consume ts);
      Ok (StOnError (OnResumeNext pos), ts)
  | _ => bad p "Expected GOTO or RESUME after ON ERROR"
  end.

(** parser.rs 1855-1863 and 1955-1963. *)
Definition parse_symbol (v : varref) (pos : linecol) (ts : toks) : pres (stmt * toks) :=
  match fst (peek ts) with
  | TkEqual => parse_assignment v pos (consume ts)
  | _ => parse_array_or_builtin_call v pos ts
  end.

(** parser.rs 1844-1867. *)
Definition parse_uniline (ts : toks) : pres (option stmt * toks) :=
  let some (x : pres (stmt * toks)) := get st, ts <- x; Ok (Some st, ts) in
  let '(tok, pos) := peek ts in
  let ts := consume ts in
  match tok with
  | TkData => some (parse_data ts)
  | TkEnd => some (parse_end pos ts)
  | TkEof | TkEol => Ok (None, ts)
  | TkExit => some (parse_exit pos ts)
  | TkGosub => some (parse_gosub ts)
  | TkGoto => some (parse_goto ts)
  | TkOn => some (parse_on pos ts)
  | TkReturn => Ok (Some (StReturn pos), ts)
  | TkSymbol v => some (parse_symbol v pos ts)
  | TkBad m => Err (PBad pos (PLexer m))
  | _ => bad_token pos "Unexpected {} in uniline IF branch" tok
  end.

(** parser.rs 1052-1080: [e] is the guard of the first branch.  The [expect] of line 1062 is a
    panic. *)
Definition parse_if_uniline (e : expr) (ts : toks) : pres (list (expr * list stmt) * toks) :=
  get body, ts <- (match fst (peek ts) with
                   | TkElse => Ok ([], ts)
                   | _ => get o, ts <- parse_uniline ts;
                          match o with Some st => Ok ([st], ts) | None => Err PPanic end
                   end);
  match fst (peek ts) with
  | TkElse =>
      get o, ts' <- parse_uniline (consume ts);
      Ok ([(e, body);
           (EBoolean true (snd (peek ts)), match o with Some st => [st] | None => [] end)], ts')
  | _ => Ok ([(e, body)], ts)
  end.

(** parser.rs 1200-1248.  The sign of the step is as its comparison with zero. *)
Definition parse_step (default_pos : linecol) (ts : toks)
    : pres ((expr * comparison * bool) * toks) :=
  match fst (peek ts) with
  | TkStep =>
      let ts := consume ts in
      let '(tok, pos) := peek ts in
      match tok with
      | TkDouble d => Ok ((EDouble d pos, if f64_eq d 0 then Eq else Gt, true), consume ts)
      | TkInteger z => Ok ((EInteger z pos, (z ?= 0)%Z, false), consume ts)
      | TkMinus =>
          let ts := consume ts in
          let '(tok, pos) := peek ts in
          match tok with
          | TkDouble d => Ok ((EDouble (f64_neg d) pos, if f64_eq d 0 then Eq else Lt, true), consume ts)
          | TkInteger z =>
              Ok ((EInteger (wrap_i32 (- z)) pos, (wrap_i32 (- z) ?= 0)%Z, false), consume ts)
          | _ => bad pos "STEP needs a literal number"
          end
      | _ => bad pos "STEP needs a literal number"
      end
  | _ => Ok ((EInteger 1 default_pos, Gt, false), ts)
  end.

(** parser.rs 1345-1379. *)
Fixpoint callable_params (n : nat) (params : list varref) (ts : toks) : pres (list varref * toks) :=
  match n with
  | O => Err PFuel
  | S n' =>
      let '(tok, pos) := peek ts in
      match tok with
      | TkSymbol param =>
          get param, ts <- (match fst (peek (consume ts)) with
                            | TkAs =>
                                get name, ts <- unannotated param pos (consume (consume ts));
                                get t, ts <- parse_as_type ts; Ok (mkVarRef name (Some t), ts)
                            | _ => Ok (param, consume ts)
                            end);
          match fst (peek ts) with
          | TkComma => callable_params n' (params ++ [param]) (consume ts)
          | TkRightParen => Ok (params ++ [param], consume ts)
          | _ => bad (snd (peek ts)) "Expected comma, AS, or end of parameters list"
          end
      | _ => bad pos "Expected a parameter name"
      end
  end.
(** parser.rs 1339-1382. *)
Definition parse_callable_args (ts : toks) : pres (list varref * toks) :=
  match fst (peek ts) with
  | TkLeftParen => callable_params (S (length ts)) [] (consume ts)
  | _ => Ok ([], ts)
  end.

(** parser.rs 1473-1516. *)
Definition parse_callable_signature (is_declare is_function : bool) (ts : toks)
    : pres ((varref * linecol * list varref) * toks) :=
  let '(tok, pos) := peek ts in
  get name, ts <- (match tok with
                   | TkSymbol v =>
                       match vr_type v, is_function with
                       | None, true => Ok (mkVarRef (vr_name v) (Some TInteger), consume ts)
                       | Some _, true => Ok (v, consume ts)
                       | None, false => Ok (v, consume ts)
                       | Some _, false =>
                           bad pos "SUBs cannot return a value so type annotations are not allowed"
                       end
                   | _ => bad pos (if is_function then "Expected a name after FUNCTION"
                                   else "Expected a name after SUB")
                   end);
  get params, ts <- parse_callable_args ts;
  let stops := match fst (peek ts) with TkEol => true | TkEof => is_declare | _ => false end in
  if stops then Ok ((name, pos, params), ts)
  else bad (snd (peek ts)) (if is_function then "Expected newline after FUNCTION name"
                            else "Expected newline after SUB name").

(** parser.rs 1455-1470. *)
Definition parse_declare (ts : toks) : pres (stmt * toks) :=
  let '(tok, pos) := peek ts in
  get s, ts <- (match tok with
                | TkFunction => parse_callable_signature true true (consume ts)
                | TkSub => parse_callable_signature true false (consume ts)
                | _ => bad pos "Expected FUNCTION or SUB after DECLARE"
                end);
  let '(name, name_pos, params) := s in Ok (StDeclare name name_pos params, ts).

(** parser.rs 1619-1632. *)
Definition relop_of (t : token) : option case_relop :=
  match t with
  | TkEqual => Some REqual
  | TkNotEqual => Some RNotEqual
  | TkLess => Some RLess
  | TkLessEqual => Some RLessEqual
  | TkGreater => Some RGreater
  | TkGreaterEqual => Some RGreaterEqual
  | _ => None
  end.

(** parser.rs 1663-1677: what follows a guard; [again] reads more of them. *)
Definition case_next (again : list case_guard -> toks -> pres (list case_guard * toks))
    (guards : list case_guard) (ts : toks) : pres (list case_guard * toks) :=
  match fst (peek ts) with
  | TkEol => Ok (guards, ts)
  | TkComma => again guards (consume ts)
  | _ => bad (snd (peek ts)) "Expected comma, newline, or TO after expression"
  end.
(** parser.rs 1639-1660. *)
Definition case_value (ts : toks) : pres (case_guard * toks) :=
  get from, ts <- parse_required_expr "Missing expression in CASE guard" ts;
  match fst (peek ts) with
  | TkEol | TkComma => Ok (CIs REqual from, ts)
  | TkTo =>
      get to, ts <- parse_required_expr "Missing expression after TO in CASE guard" (consume ts);
      Ok (CTo from to, ts)
  | _ => bad (snd (peek ts)) "Expected comma, newline, or TO after expression"
  end.
(** parser.rs 1615-1637. *)
Definition case_is (ts : toks) : pres (case_guard * toks) :=
  match relop_of (fst (peek ts)) with
  | Some o =>
      get e, ts <- parse_required_expr "Missing expression after relational operator" (consume ts);
      Ok (CIs o e, ts)
  | None => bad (snd (peek ts)) "Expected relational operator"
  end.
(** parser.rs 1588-1681. *)
Fixpoint case_guards (n : nat) (guards : list case_guard) (ts : toks) : pres (list case_guard * toks) :=
  match n with
  | O => Err PFuel
  | S n' =>
      match fst (peek ts) with
      | TkElse =>
          match guards with
          | _ :: _ => bad (snd (peek ts)) "CASE ELSE must be on its own"
          | [] =>
              let ts := consume ts in
              if ends_line (fst (peek ts)) then Ok (guards, ts)
              else bad (snd (peek ts)) "Expected newline after CASE ELSE"
          end
      | TkIs => get g, ts <- case_is (consume ts); case_next (case_guards n') (guards ++ [g]) ts
      | _ => get g, ts <- case_value ts; case_next (case_guards n') (guards ++ [g]) ts
      end
  end.
Definition parse_case_guards (ts : toks) : pres (list case_guard * toks) :=
  case_guards (S (length ts)) [] ts.

(** parser.rs 1874-1882. *)
Fixpoint skip_eols (ts : toks) : toks :=
  match ts with (TkEol, _) :: r => skip_eols r | _ => ts end.

(** The statements that contain others, given the parser of one statement. *)
Section One.
Variable one : toks -> pres (option stmt * toks).

(** parser.rs 303-319. *)
Fixpoint until (n : nat) (delim : token) (stmts : list stmt) (ts : toks) : pres (list stmt * toks) :=
  match n with
  | O => Err PFuel
  | S n' =>
      let tok := fst (peek ts) in
      if token_dec tok delim then Ok (stmts, ts)
      else
        match tok with
        | TkEol => until n' delim stmts (consume ts)
        | _ =>
            get o, ts <- one ts;
            match o with
            | Some st => until n' delim (stmts ++ [st]) ts
            | None => Ok (stmts, ts)
            end
        end
  end.
Definition parse_until (delim : token) (ts : toks) : pres (list stmt * toks) :=
  until (S (length ts)) delim [] ts.

(** parser.rs 636-660. *)
Definition parse_do (do_pos : linecol) (ts : toks) : pres (stmt * toks) :=
  get pre, ts <- parse_do_guard "DO" ts;
  get _p, ts <- expect TkEol "Expecting newline after DO" ts;
  get body, ts <- parse_until TkLoop ts;
  get _p, ts <- expect_at TkLoop do_pos "DO without LOOP" ts;
  get post, ts <- parse_do_guard "LOOP" ts;
  match pre, post with
  | None, None => Ok (StDo GInfinite body, ts)
  | Some (g, true), None => Ok (StDo (GPreUntil g) body, ts)
  | Some (g, false), None => Ok (StDo (GPreWhile g) body, ts)
  | None, Some (g, true) => Ok (StDo (GPostUntil g) body, ts)
  | None, Some (g, false) => Ok (StDo (GPostWhile g) body, ts)
  | Some _, Some _ => bad do_pos "DO loop cannot have pre and post guards at the same time"
  end.

(** parser.rs 1083-1160.  [done] are the branches before the current one, whose guard is [g] and
    whose statements so far are [body]. *)
Fixpoint if_multiline (n : nat) (if_pos : linecol) (done : list (expr * list stmt)) (g : expr)
    (body : list stmt) (last : bool) (ts : toks) : pres (list (expr * list stmt) * toks) :=
  match n with
  | O => Err PFuel
  | S n' =>
      let finish (body : list stmt) (ts : toks) :=
        get _u, ts <- expect_at TkIf if_pos "IF without END IF" ts; Ok (done ++ [(g, body)], ts) in
      let '(tok, pos) := peek ts in
      match tok with
      | TkEol => if_multiline n' if_pos done g body last (consume ts)
      | TkElseif =>
          if last then bad pos "Unexpected ELSEIF after ELSE"
          else
            get e, ts <- parse_required_expr "No expression in ELSEIF statement" (consume ts);
            get _p, ts <- expect TkThen "No THEN in ELSEIF statement" ts;
            get _p, ts <- expect TkEol "Expecting newline after THEN" ts;
            if_multiline n' if_pos (done ++ [(g, body)]) e [] last ts
      | TkElse =>
          if last then bad pos "Duplicate ELSE after ELSE"
          else
            get _p, ts <- expect TkEol "Expecting newline after ELSE" (consume ts);
            if_multiline n' if_pos (done ++ [(g, body)]) (EBoolean true pos) [] true ts
      | TkEnd =>
          get r, ts <- maybe_parse_end pos (consume ts);
          match r with
          | inl st => if_multiline n' if_pos done g (body ++ [st]) last ts
          | inr TkIf => finish body ts
          | inr t => end_without pos t
          end
      | _ =>
          get o, ts <- one ts;
          match o with
          | Some st => if_multiline n' if_pos done g (body ++ [st]) last ts
          | None => finish body ts
          end
      end
  end.

(** parser.rs 1163-1176. *)
Definition parse_if (if_pos : linecol) (ts : toks) : pres (stmt * toks) :=
  get e, ts <- parse_required_expr "No expression in IF statement" ts;
  get _p, ts <- expect TkThen "No THEN in IF statement" ts;
  get branches, ts <- (match fst (peek ts) with
                       | TkEol | TkEof => if_multiline (S (length ts)) if_pos [] e [] false ts
                       | _ => parse_if_uniline e ts
                       end);
  Ok (StIf branches, ts).

(** parser.rs 1251-1318. *)
Definition parse_for (for_pos : linecol) (ts : toks) : pres (stmt * toks) :=
  let '(tok, pos) := peek ts in
  match tok with
  | TkSymbol v =>
      match vr_type v with
      | None | Some TDouble | Some TInteger =>
          get _p, ts <- expect TkEqual "No equal sign in FOR statement" (consume ts);
          get start, ts <- parse_required_expr "No start expression in FOR statement" ts;
          get to_pos, ts <- expect TkTo "No TO in FOR statement" ts;
          get end_, ts <- parse_required_expr "No end expression in FOR statement" ts;
          get st, ts <- parse_step for_pos ts;
          let '(step, sign, iter_double) := st in
          match sign with
          | Eq => bad (start_pos step) "Infinite FOR loop; STEP cannot be 0"
          | _ =>
              let condition := EBinary (match sign with Gt => BLessEqual | _ => BGreaterEqual end)
                                 (ESymbol v pos) end_ to_pos in
              let next := EBinary BAdd (ESymbol v pos) step to_pos in
              get _p, ts <- expect TkEol "Expecting newline after FOR" ts;
              get body, ts <- parse_until TkNext ts;
              get _u, ts <- expect_at TkNext for_pos "FOR without NEXT" ts;
              Ok (StFor v pos iter_double start condition next body, ts)
          end
      | _ => bad pos "Iterator name in FOR statement must be a numeric reference"
      end
  | _ => bad pos "No iterator name in FOR statement"
  end.

(** parser.rs 1386-1452; [is_function] says which of END FUNCTION and END SUB ends the body. *)
Fixpoint callable_body (n : nat) (start_pos : linecol) (is_function : bool) (body : list stmt) (ts : toks)
    : pres ((list stmt * linecol) * toks) :=
  match n with
  | O => Err PFuel
  | S n' =>
      let exp := if is_function then TkFunction else TkSub in
      let without := if is_function then "FUNCTION without END FUNCTION" else "SUB without END SUB" in
      let finish (end_pos : linecol) (ts : toks) :=
        get _u, ts <- expect_at exp start_pos without ts; Ok ((body, end_pos), ts) in
      let '(tok, pos) := peek ts in
      match tok with
      | TkEof => finish pos ts
      | TkEol => callable_body n' start_pos is_function body (consume ts)
      | TkFunction | TkSub => bad pos "Cannot nest FUNCTION or SUB definitions"
      | TkEnd =>
          get r, ts <- maybe_parse_end pos (consume ts);
          match r with
          | inl st => callable_body n' start_pos is_function (body ++ [st]) ts
          | inr t => if token_dec t exp then finish pos ts else end_without pos t
          end
      | _ =>
          get o, ts <- one ts;
          match o with
          | Some st => callable_body n' start_pos is_function (body ++ [st]) ts
          | None => bad start_pos without
          end
      end
  end.

(** parser.rs 1519-1530. *)
Definition parse_callable (is_function : bool) (pos : linecol) (ts : toks) : pres (stmt * toks) :=
  get s, ts <- parse_callable_signature false is_function ts;
  let '(name, name_pos, params) := s in
  get b, ts <- callable_body (S (length ts)) pos is_function [] ts;
  Ok (StCallable name name_pos params (fst b) (snd b), ts).

(** parser.rs 1695-1783.  [done] are the cases before the current one, [cur], if there is one. *)
Fixpoint select_cases (n : nat) (select_pos : linecol) (done : list (list case_guard * list stmt))
    (cur : option (list case_guard * list stmt)) (last : bool) (ts : toks)
    : pres ((list (list case_guard * list stmt) * linecol) * toks) :=
  match n with
  | O => Err PFuel
  | S n' =>
      let cases := done ++ match cur with Some c => [c] | None => [] end in
      let add (st : stmt) (ts : toks) :=
        match cur with
        | Some (gs, body) => select_cases n' select_pos done (Some (gs, body ++ [st])) last ts
        | None => Err PPanic
        end in
      let finish (end_pos : linecol) (ts : toks) :=
        get _u, ts <- expect_at TkSelect select_pos "SELECT without END SELECT" ts;
        Ok ((cases, end_pos), ts) in
      let before {A} (pos : linecol) : pres A :=
        bad pos "Expected CASE after SELECT CASE before any statement" in
      let '(tok, pos) := peek ts in
      match tok with
      | TkEof => finish pos ts
      | TkEol => select_cases n' select_pos done cur last (consume ts)
      | TkCase =>
          get guards, ts <- parse_case_guards (consume ts);
          get _p, ts <- expect TkEol "Expecting newline after CASE" ts;
          let is_last := match guards with [] => true | _ => false end in
          if last then
            bad pos (if is_last then "CASE ELSE must be unique" else "CASE ELSE is not last")
          else select_cases n' select_pos cases (Some (guards, [])) is_last ts
      | TkEnd =>
          get r, ts <- maybe_parse_end pos (consume ts);
          match r with
          | inl st => match cur with None => before pos | Some _ => add st ts end
          | inr TkSelect => finish pos ts
          | inr t => match cur with None => before pos | Some _ => end_without pos t end
          end
      | _ =>
          match cur with
          | None => before pos
          | Some _ =>
              get o, ts <- one ts;
              match o with
              | Some st => add st ts
              | None => select_cases n' select_pos done cur last ts
              end
          end
      end
  end.

(** parser.rs 1684-1784. *)
Definition parse_select (select_pos : linecol) (ts : toks) : pres (stmt * toks) :=
  get _p, ts <- expect TkCase "Expecting CASE after SELECT" ts;
  get e, ts <- parse_required_expr "No expression in SELECT CASE statement" ts;
  get _p, ts <- expect TkEol "Expecting newline after SELECT CASE" ts;
  get c, ts <- select_cases (S (length ts)) select_pos [] None false ts;
  Ok (StSelect e (fst c) (snd c), ts).

(** parser.rs 1809-1817. *)
Definition parse_while (while_pos : linecol) (ts : toks) : pres (stmt * toks) :=
  get e, ts <- parse_required_expr "No expression in WHILE statement" ts;
  get _p, ts <- expect TkEol "Expecting newline after WHILE" ts;
  get body, ts <- parse_until TkWend ts;
  get _u, ts <- expect_at TkWend while_pos "WHILE without WEND" ts;
  Ok (StWhile e body, ts).

(** parser.rs 1884-1973, but for labels. *)
Definition parse_keyword (tok : token) (pos : linecol) (ts : toks) : pres (stmt * toks) :=
  match tok with
  | TkData => parse_data ts
  | TkDeclare => parse_declare ts
  | TkDim => parse_dim ts
  | TkDo => parse_do pos ts
  | TkEnd => parse_end pos ts
  | TkExit => parse_exit pos ts
  | TkIf => parse_if pos ts
  | TkFor => parse_for pos ts
  | TkFunction => parse_callable true pos ts
  | TkGosub => parse_gosub ts
  | TkGoto => parse_goto ts
  | TkOn => parse_on pos ts
  | TkReturn => Ok (StReturn pos, ts)
  | TkSelect => parse_select pos ts
  | TkSub => parse_callable false pos ts
  | TkSymbol v => parse_symbol v pos ts
  | TkWhile => parse_while pos ts
  | TkBad m => Err (PBad pos (PLexer m))
  | _ => bad_token pos "Unexpected {} in statement" tok
  end.

(** parser.rs 1873-1990. *)
Definition one_step (ts : toks) : pres (option stmt * toks) :=
  let ts := skip_eols ts in
  let '(tok, pos) := peek ts in
  match tok with
  | TkEof => Ok (None, ts)
  | TkInteger z => Ok (Some (StLabel (to_string z) pos), consume ts)
  | TkLabel name => Ok (Some (StLabel name pos), consume ts)
  | _ =>
      get st, ts <- parse_keyword tok pos (consume ts);
      let '(tok, pos) := peek ts in
      match tok with
      | TkEof => Ok (Some st, ts)
      | TkEol => Ok (Some st, consume ts)
      | _ => bad_token pos "Expected newline but found {}" tok
      end
  end.
End One.

(** parser.rs 1873-1990 and 2012-2018; the number bounds how deep statements contain others. *)
Fixpoint parse_one (n : nat) (ts : toks) : pres (option stmt * toks) :=
  match n with
  | O => Err PFuel
  | S n' => one_step (parse_one n') ts
  end.

(** parser.rs 2030-2032, as the compiler uses it: all the statements, or those before the first
    error and the error. *)
Fixpoint parse_all (n : nat) (ts : toks) : list stmt * option parse_error :=
  match n with
  | O => ([], Some PFuel)
  | S n' =>
      match parse_one (S (length ts)) ts with
      | Err e => ([], Some e)
      | Ok (None, _) => ([], None)
      | Ok (Some st, ts') => let '(l, e) := parse_all n' ts' in (st :: l, e)
      end
  end.
Definition parse_stmts (ts : toks) : list stmt * option parse_error := parse_all (S (length ts)) ts.

End Eof.
