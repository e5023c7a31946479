(** What source text means: positions, literals and tokens, independently of the lexer. *)
From Coq Require Import String.
From Verif Require Import Base Bytecode_Model Vm_Model Ast_Model Lex_Model.
Local Open Scope string_scope.
Local Open Scope N_scope.
Local Open Scope list_scope.

(** * Positions *)

(** The next tab stop after [w] columns: the least multiple of eight above it. *)
Definition next_stop (w : N) : N := (w / 8 + 1) * 8.

(** The columns taken by a text without newlines, character by character. *)
Definition columns (line : list N) : N :=
  fold_left (fun w c => if c =? 9 then next_stop w else w + 1) line 0.

(** What follows the last newline of a text. *)
Fixpoint last_line (t : list N) : list N :=
  match t with
  | [] => []
  | c :: r => if existsb (N.eqb 10) r then last_line r else if c =? 10 then r else t
  end.

(** The position of the character that follows the text [before]. *)
Definition position_after (before : list N) : linecol :=
  (1 + N.of_nat (count_occ N.eq_dec before 10), 1 + columns (last_line before)).
(** The position of the character at index [k]. *)
Definition position (text : list N) (k : nat) : linecol := position_after (firstn k text).

(** * The reader *)

Inductive reader_op := OpNext | OpPeek.
(** The results of a sequence of reads and peeks. *)
Fixpoint run_reader (ops : list reader_op) (r : reader) : list (option (res read_error charspan)) :=
  match ops with
  | [] => []
  | OpNext :: o => let '(x, r') := next r in x :: run_reader o r'
  | OpPeek :: o => let '(x, r') := peek r in x :: run_reader o r'
  end.

(** What the [k]-th read gives: the character at [k] and its position, then the end of the file
    for ever, or the source's error once. *)
Definition item (text : list N) (fails : bool) (k : nat) : option (res read_error charspan) :=
  match nth_error text k with
  | Some c => Some (Ok (c, position text k))
  | None =>
      if fails then Some (Err (if (k =? length text)%nat then SourceError else AlreadyConsumed))
      else None
  end.
(** Reads move on and peeks do not. *)
Fixpoint script (text : list N) (fails : bool) (k : nat) (ops : list reader_op) :=
  match ops with
  | [] => []
  | OpNext :: o => item text fails k :: script text fails (S k) o
  | OpPeek :: o => item text fails k :: script text fails k o
  end.

(** * Spellings *)

(** What the lexer needs to know about the Unicode tables: the ASCII range. *)
Record tables_ok (alnum numeric : N -> bool) (uc : N -> list N) : Prop := {
  to_alnum : forall c, c < 128 ->
    alnum c = ((48 <=? c) && (c <=? 57)) || ((65 <=? c) && (c <=? 90)) || ((97 <=? c) && (c <=? 122));
  to_numeric : forall c, c < 128 -> numeric c = (48 <=? c) && (c <=? 57);
  to_upper : forall c, c < 128 -> uc c = [upper1 c]
}.

(** Spaces do not separate statements. *)
Definition blank (c : N) : Prop := In c [32; 9; 13].
(** The characters that end a word. *)
Definition ends_word (c : N) : Prop := blank c \/ In c (10 :: u ":()'=<>;,+-*/^").
(** What may follow a word. *)
Definition word_ends (rest : list N) : Prop := match rest with [] => True | c :: _ => ends_word c end.

(** The value of a digit, and of a sequence of digits, most significant first. *)
Definition digit_value (c d : N) : Prop :=
  nth_error (u "0123456789abcdef") (N.to_nat d) = Some c \/
  nth_error (u "0123456789ABCDEF") (N.to_nat d) = Some c.
Fixpoint positional (base : N) (ds : list N) : N :=
  match ds with
  | [] => 0
  | d :: r => d * base ^ N.of_nat (length r) + positional base r
  end.
(** [s] is a nonempty numeral with value [v]. *)
Definition numeral (base : N) (s : ustr) (v : N) : Prop :=
  exists ds, s <> [] /\ Forall2 digit_value s ds /\ Forall (fun d => d < base) ds /\
    v = positional base ds.

(** The letters that select a base. *)
Definition base_letter (c base : N) : Prop :=
  In (c, base) [(98, 2); (66, 2); (100, 10); (68, 10); (111, 8); (79, 8); (120, 16); (88, 16)].

(** Integer literals: decimal, or [&], a base, maybe an underscore, and up to 32 bits, which are
    the bits of the signed result. *)
Inductive int_literal : ustr -> Z -> Prop :=
| il_decimal s v : numeral 10 s v -> v < 2 ^ 31 -> int_literal s (Z.of_N v)
| il_based c base us s v z :
    base_letter c base -> us = [] \/ us = [95] -> numeral base s v -> v < 2 ^ 32 ->
    (- 2 ^ 31 <= z < 2 ^ 31)%Z -> (z mod 2 ^ 32 = Z.of_N v)%Z ->
    int_literal (38 :: c :: us ++ s) z.

(** The body of a text literal and the text it stands for. *)
Inductive quoted : list N -> ustr -> Prop :=
| q_nil : quoted [] []
| q_plain c b t : c <> 34 -> c <> 92 -> quoted b t -> quoted (c :: b) (c :: t)
| q_escaped c b t : quoted b t -> quoted (92 :: c :: b) (c :: t).

(** One way to write any text. *)
Definition escape (t : ustr) : list N :=
  flat_map (fun c => if (c =? 34) || (c =? 92) then [92; c] else [c]) t.

Section Tables.
Variable alnum numeric : N -> bool.
Variable uc : N -> list N.

Definition word_char (c : N) : Prop := c = 95 \/ alnum c = true.
(** Names: word characters, not starting with an ASCII digit. *)
Definition word (w : ustr) : Prop :=
  Forall word_char w /\ match w with [] => False | c :: _ => ~ 48 <= c <= 57 end.
(** Names that stand for themselves. *)
Definition plain_name (w : ustr) : Prop :=
  word w /\ keyword (flat_map uc w) = None /\ flat_map uc w <> u "REM".

Definition annotation_of (t : etype) : N :=
  match t with TBoolean => 63 | TDouble => 35 | TInteger => 37 | TText => 36 end.

(** Fixed tokens and their text. *)
Definition punctuation : list (token * ustr) :=
  [(TkEol, [10]); (TkEol, u ":"); (TkSemicolon, u ";"); (TkComma, u ","); (TkLeftParen, u "(");
   (TkRightParen, u ")"); (TkPlus, u "+"); (TkMinus, u "-"); (TkMultiply, u "*");
   (TkDivide, u "/"); (TkExponent, u "^"); (TkEqual, u "="); (TkNotEqual, u "<>");
   (TkLessEqual, u "<="); (TkGreaterEqual, u ">="); (TkShiftLeft, u "<<"); (TkShiftRight, u ">>")].

(** [spells tok w rest]: [w] is written for the token [tok] when [rest] follows. *)
Inductive spells : token -> ustr -> list N -> Prop :=
| sp_punct t w rest : In (t, w) punctuation -> spells t w rest
| sp_less rest :
    match rest with c :: _ => ~ In c (u "<=>") | [] => True end -> spells TkLess (u "<") rest
| sp_greater rest :
    match rest with c :: _ => ~ In c (u "=>") | [] => True end -> spells TkGreater (u ">") rest
| sp_integer w z rest : int_literal w z -> word_ends rest -> spells (TkInteger z) w rest
| sp_double a b rest : Forall (fun c => 48 <= c <= 57) (a ++ b) -> a <> [] -> b <> [] ->
    word_ends rest -> spells (TkDouble (parse_f64 (a ++ 46 :: b))) (a ++ 46 :: b) rest
| sp_text b t rest : quoted b t -> spells (TkText t) (34 :: b ++ [34]) rest
| sp_label w c r rest : w = c :: r -> Forall word_char w -> numeric c = false -> word_ends rest ->
    spells (TkLabel w) (64 :: w) rest
| sp_symbol w rest : plain_name w -> word_ends rest ->
    spells (TkSymbol (mkVarRef w None)) w rest
| sp_annotated w t rest : plain_name w ->
    spells (TkSymbol (mkVarRef w (Some t))) (w ++ [annotation_of t]) rest
| sp_keyword w k rest : word w -> keyword (flat_map uc w) = Some k -> word_ends rest ->
    spells k w rest
(** Keywords ignore annotations. *)
| sp_annotated_keyword w t k rest : word w -> keyword (flat_map uc w) = Some k ->
    spells k (w ++ [annotation_of t]) rest.

(** Where the text [w] at [p] leads. *)
Definition after (w : list N) (p : linecol) : linecol := fold_left advance w p.

(** How a comment starts: an apostrophe, or [REM] in any case, maybe annotated. *)
Inductive comment_start : list N -> list N -> Prop :=
| cs_apostrophe rest : comment_start [39] rest
| cs_rem w rest : word w -> flat_map uc w = u "REM" -> word_ends rest -> comment_start w rest
| cs_rem_annotated w t rest : word w -> flat_map uc w = u "REM" ->
    comment_start (w ++ [annotation_of t]) rest.

(** [tokenised t p l e]: the text [t] at [p] is the tokens [l], and ends at [e]. *)
Inductive tokenised : list N -> linecol -> list tokspan -> linecol -> Prop :=
| tk_end sp p : Forall blank sp -> tokenised sp p [] (after sp p)
| tk_comment_end sp cs body p :
    Forall blank sp -> comment_start cs body -> ~ In 10 body ->
    tokenised (sp ++ cs ++ body) p [] (after (sp ++ cs ++ body) p)
| tk_comment sp cs body rest p l e :
    Forall blank sp -> comment_start cs (body ++ 10 :: rest) -> ~ In 10 body ->
    tokenised rest (after (sp ++ cs ++ body ++ [10]) p) l e ->
    tokenised (sp ++ cs ++ body ++ 10 :: rest) p ((TkEol, after (sp ++ cs ++ body) p) :: l) e
| tk_token sp w tok rest p l e :
    Forall blank sp -> spells tok w rest -> tokenised rest (after (sp ++ w) p) l e ->
    tokenised (sp ++ w ++ rest) p ((tok, after sp p) :: l) e.

(** The shebang: a first line starting with [#!]. *)
Definition starts_with_hash (t : list N) : bool := match t with 35 :: _ => true | _ => false end.

End Tables.
