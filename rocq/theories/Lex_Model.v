(** Reading source text: characters with positions (core/src/reader.rs) and tokens
    (core/src/lexer.rs). *)
From Coq Require Import SpecFloat String.
From Verif Require Import Base Bytecode_Model Num_Model Vm_Model Ast_Model.
Local Open Scope string_scope.
Local Open Scope N_scope.
Local Open Scope list_scope.

(** * The character reader *)

(** reader.rs 44-51: [CharSpan]. *)
Definition charspan := (N * linecol)%type.

(** reader.rs 53-67: [Pending].  [PError true] still holds the original error, [PError false] has
    already returned it. *)
Inductive pending :=
| PUnknown
| PChars (chars : list N) (last : nat)
| PEof
| PError (fresh : bool).

(** The [io::Error] of the source, and the one reader.rs 163 makes up. *)
Inductive read_error := SourceError | AlreadyConsumed.

(** reader.rs 70-82: [CharReader].  The underlying [BufReader] is the list of results that its
    successive [read_line] calls give: a line, which is never empty, or an error; an exhausted list
    is the end of the file. *)
Record reader := mkReader {
  rd_lines : list (res unit ustr);
  rd_pending : pending;
  rd_peeked : option (option (res read_error charspan));
  rd_next_pos : linecol
}.

(** reader.rs 86-93. *)
Definition reader_from (lines : list (res unit ustr)) : reader :=
  mkReader lines PUnknown None (1, 1).

(** reader.rs 24. *)
Definition TAB_LENGTH : N := 8.

(** reader.rs 143-156: where the character after [ch] at [pos] goes. *)
Definition advance (pos : linecol) (ch : N) : linecol :=
  let '(line, col) := pos in
  if ch =? 10 then (line + 1, 1)
  else if ch =? 9 then (line, (col - 1 + TAB_LENGTH) / TAB_LENGTH * TAB_LENGTH + 1)
  else (line, col + 1).

(** reader.rs 96-106 with 133-165: [refill_and_next] for a reader without a peeked character.  The
    mutual recursion with [next] only goes on over empty lines. *)
Fixpoint refill_and_next (lines : list (res unit ustr)) (pos : linecol)
    : option (res read_error charspan) * reader :=
  match lines with
  | [] => (None, mkReader [] PEof None pos)
  | Err _ :: r => (Some (Err SourceError), mkReader r (PError false) None pos)
  | Ok line :: r =>
      match line with
      | [] => refill_and_next r pos
      | ch :: _ => (Some (Ok (ch, pos)), mkReader r (PChars line 1) None (advance pos ch))
      end
  end.

(** reader.rs 128-166. *)
Definition next (r : reader) : option (res read_error charspan) * reader :=
  match rd_peeked r with
  | Some peeked => (peeked, mkReader (rd_lines r) (rd_pending r) None (rd_next_pos r))
  | None =>
      match rd_pending r with
      | PUnknown => refill_and_next (rd_lines r) (rd_next_pos r)
      | PEof => (None, r)
      | PChars chars last =>
          match nth_error chars last with
          | None => refill_and_next (rd_lines r) (rd_next_pos r)
          | Some ch =>
              let pos := rd_next_pos r in
              (Some (Ok (ch, pos)), mkReader (rd_lines r) (PChars chars (S last)) None (advance pos ch))
          end
      | PError fresh =>
          (Some (Err (if fresh then SourceError else AlreadyConsumed)),
           mkReader (rd_lines r) (PError false) None (rd_next_pos r))
      end
  end.

(** reader.rs 109-115. *)
Definition peek (r : reader) : option (res read_error charspan) * reader :=
  match rd_peeked r with
  | Some p => (p, r)
  | None =>
      let '(n, r') := next r in
      (n, mkReader (rd_lines r') (rd_pending r') (Some n) (rd_next_pos r'))
  end.

(** reader.rs 119-121. *)
Definition next_pos (r : reader) : linecol := rd_next_pos r.

(** * Tokens *)

(** lexer.rs 274-624: the messages of [Token::Bad], by case. *)
Inductive lex_msg :=
| MTooManyDots
| MUnexpectedInNumber (ch : N)
| MUnknownCharacter (ch : N)
| MBadInteger (s : ustr)
| MBaseNotInteger
| MNoDigits
| MMissingBase
| MUnknownBase (ch : N)
| MIncompleteInteger
| MUnexpectedInSymbol (ch : N)
| MIncompleteString (s : ustr)
| MEmptyLabel
| MUnexpectedInLabel (ch : N).

(** lexer.rs 34-110: [Token]. *)
Inductive token :=
| TkEof | TkEol | TkBad (m : lex_msg)
| TkBoolean (b : bool) | TkDouble (bits : N) | TkInteger (z : Z) | TkText (s : ustr)
| TkSymbol (v : varref) | TkLabel (s : ustr)
| TkComma | TkSemicolon | TkLeftParen | TkRightParen
| TkPlus | TkMinus | TkMultiply | TkDivide | TkModulo | TkExponent
| TkEqual | TkNotEqual | TkLess | TkLessEqual | TkGreater | TkGreaterEqual
| TkAnd | TkNot | TkOr | TkXor | TkShiftLeft | TkShiftRight
| TkCase | TkData | TkDeclare | TkDo | TkElse | TkElseif | TkEnd | TkError | TkExit | TkFor
| TkFunction | TkGosub | TkGoto | TkIf | TkIs | TkLoop | TkNext | TkOn | TkResume | TkReturn
| TkSelect | TkSub | TkStep | TkThen | TkTo | TkUntil | TkWend | TkWhile
| TkDim | TkShared | TkAs | TkBooleanName | TkDoubleName | TkIntegerName | TkTextName.

(** lexer.rs 243-260: [TokenSpan]; its length, which nothing uses, is left out. *)
Definition tokspan := (token * linecol)%type.

(** lexer.rs 226-235. *)
Definition is_space (c : N) : bool := (c =? 32) || (c =? 9) || (c =? 13).
(** lexer.rs 215-221. *)
Definition is_separator (c : N) : bool :=
  existsb (N.eqb c) [10; 58; 40; 41; 39; 61; 60; 62; 59; 44; 43; 45; 42; 47; 94] || is_space c.

Definition is_ascii_digit (c : N) : bool := (48 <=? c) && (c <=? 57).

(** [char::to_digit] for a radix of at most 16. *)
Definition to_digit (c radix : N) : option N :=
  let d := if is_ascii_digit c then Some (c - 48)
           else if (97 <=? c) && (c <=? 102) then Some (c - 87)
           else if (65 <=? c) && (c <=? 70) then Some (c - 55) else None in
  match d with Some d => if d <? radix then Some d else None | None => None end.

(** The standard library's [from_str_radix] over an unsigned accumulator limited by [limit], for
    a nonempty text without sign.  [i32::from_str] is this with the limit [2^31 - 1], as no sign
    reaches it; [u32::from_str_radix] with [2^32 - 1]. *)
Fixpoint from_radix (limit radix acc : N) (s : ustr) : option N :=
  match s with
  | [] => Some acc
  | c :: r =>
      match to_digit c radix with
      | None => None
      | Some d =>
          let m := acc * radix in
          if m <=? limit then
            if m + d <=? limit then from_radix limit radix (m + d) r else None
          else None
      end
  end.

(** [u32 as i32]. *)
Definition u32_as_i32 (n : N) : Z :=
  if n <? 2 ^ 31 then Z.of_N n else (Z.of_N n - 2 ^ 32)%Z.

(** [str::parse::<f64>] of digits with one dot among them: the correctly rounded quotient of the
    digits by the power of ten.  [SFdiv] rounds the exact quotient of its two mantissas, which may
    have any number of digits. *)
Fixpoint digits_value (acc : N) (s : ustr) : N :=
  match s with
  | [] => acc
  | c :: r => if c =? 46 then digits_value acc r else digits_value (acc * 10 + (c - 48)) r
  end.
Fixpoint frac_digits (s : ustr) : nat :=
  match s with
  | [] => O
  | c :: r => if c =? 46 then length r else frac_digits r
  end.
Definition parse_f64 (s : ustr) : N :=
  match digits_value 0 s with
  | 0 => 0
  | N.pos m =>
      match 10 ^ N.of_nat (frac_digits s) with
      | 0 => 0
      | N.pos d => f64_bits (SFdiv prec emax (S754_finite false m 0) (S754_finite false d 0))
      end
  end.

(** lexer.rs 516-561: the keywords.  [REM] is not a token and is treated apart. *)
Definition keywords : list (ustr * token) :=
  [(u "AND", TkAnd); (u "AS", TkAs); (u "BOOLEAN", TkBooleanName); (u "CASE", TkCase);
   (u "DATA", TkData); (u "DECLARE", TkDeclare); (u "DIM", TkDim); (u "DO", TkDo);
   (u "DOUBLE", TkDoubleName); (u "ELSE", TkElse); (u "ELSEIF", TkElseif); (u "END", TkEnd);
   (u "ERROR", TkError); (u "EXIT", TkExit); (u "FALSE", TkBoolean false); (u "FOR", TkFor);
   (u "FUNCTION", TkFunction); (u "GOSUB", TkGosub); (u "GOTO", TkGoto); (u "IF", TkIf);
   (u "IS", TkIs); (u "INTEGER", TkIntegerName); (u "LOOP", TkLoop); (u "MOD", TkModulo);
   (u "NEXT", TkNext); (u "NOT", TkNot); (u "ON", TkOn); (u "OR", TkOr); (u "RESUME", TkResume);
   (u "RETURN", TkReturn); (u "SELECT", TkSelect); (u "SHARED", TkShared); (u "STEP", TkStep);
   (u "STRING", TkTextName); (u "SUB", TkSub); (u "THEN", TkThen); (u "TO", TkTo);
   (u "TRUE", TkBoolean true); (u "UNTIL", TkUntil); (u "WEND", TkWend); (u "WHILE", TkWhile);
   (u "XOR", TkXor)].
Definition keyword (s : ustr) : option token :=
  option_map snd (find (fun kv => ustr_eqb (fst kv) s) keywords).

(** * The lexer *)

(** lexer.rs 263-266: the lexer's input.  [CharReader] over a source without errors is a text and
    the position of its first character ([C24_reader] in Lex_Props); read errors, which the lexer
    passes through, are not modelled from here on. *)
Definition input := (list N * linecol)%type.

Section Unicode.
(** [char::is_alphanumeric], [char::is_numeric] and the [char::to_uppercase] tables. *)
Variable alnum numeric : N -> bool.
Variable uc : N -> list N.

(** lexer.rs 229-234. *)
Definition is_word (c : N) : bool := (c =? 95) || alnum c.

(** lexer.rs 278-296: what is left after skipping to a separator. *)
Fixpoint skip_bad (t : list N) (p : linecol) : input :=
  match t with
  | [] => ([], p)
  | c :: r => if is_separator c then (t, p) else skip_bad r (advance p c)
  end.
Definition handle_bad_read (m : lex_msg) (first_pos : linecol) (i : input) : tokspan * input :=
  ((TkBad m, first_pos), skip_bad (fst i) (snd i)).

(** lexer.rs 327-343: the end of [consume_number]; the accumulated text is [s]. *)
Definition number_token (s : ustr) (found_dot : bool) (fp : linecol) (i : input) : tokspan * input :=
  if found_dot then
    if (last s 0 =? 46) then handle_bad_read (MUnknownCharacter 46) fp i
    else ((TkDouble (parse_f64 s), fp), i)
  else
    match from_radix (2 ^ 31 - 1) 10 0 s with
    | Some n => ((TkInteger (Z.of_N n), fp), i)
    | None => handle_bad_read (MBadInteger s) fp i
    end.

(** lexer.rs 299-344. *)
Fixpoint consume_number (s : ustr) (found_dot : bool) (fp : linecol) (t : list N) (p : linecol)
    : tokspan * input :=
  match t with
  | [] => number_token s found_dot fp ([], p)
  | c :: r =>
      if c =? 46 then
        if found_dot then handle_bad_read MTooManyDots fp (r, advance p c)
        else consume_number (s ++ [c]) true fp r (advance p c)
      else if is_ascii_digit c then consume_number (s ++ [c]) found_dot fp r (advance p c)
      else if is_separator c then number_token s found_dot fp (t, p)
      else handle_bad_read (MUnexpectedInNumber c) fp (r, advance p c)
  end.

(** lexer.rs 377-384. *)
Definition integer_token (base : N) (s : ustr) (fp : linecol) (i : input) : tokspan * input :=
  match s with
  | [] => handle_bad_read MNoDigits fp i
  | _ :: _ =>
      match from_radix (2 ^ 32 - 1) base 0 s with
      | Some n => ((TkInteger (u32_as_i32 n), fp), i)
      | None => handle_bad_read (MBadInteger s) fp i
      end
  end.

Definition is_hex_letter (c : N) : bool := ((97 <=? c) && (c <=? 102)) || ((65 <=? c) && (c <=? 70)).

(** lexer.rs 349-385. *)
Fixpoint consume_integer (base : N) (s : ustr) (fp : linecol) (t : list N) (p : linecol)
    : tokspan * input :=
  match t with
  | [] => integer_token base s fp ([], p)
  | c :: r =>
      if c =? 46 then handle_bad_read MBaseNotInteger fp (r, advance p c)
      else if is_ascii_digit c || is_hex_letter c then consume_integer base (s ++ [c]) fp r (advance p c)
      else if is_separator c then integer_token base s fp (t, p)
      else handle_bad_read (MUnexpectedInNumber c) fp (r, advance p c)
  end.

(** lexer.rs 393-397. *)
Definition base_of (c : N) : option N :=
  if (c =? 98) || (c =? 66) then Some 2
  else if (c =? 100) || (c =? 68) then Some 10
  else if (c =? 111) || (c =? 79) then Some 8
  else if (c =? 120) || (c =? 88) then Some 16
  else None.

(** lexer.rs 388-430. *)
Definition consume_integer_with_base (fp : linecol) (i : input) : tokspan * input :=
  let '(t, p) := i in
  match t with
  | [] => handle_bad_read MIncompleteInteger fp i
  | c :: r =>
      match base_of c with
      | Some base =>
          let p' := advance p c in
          match r with
          | [] => handle_bad_read MIncompleteInteger fp (r, p')
          | c2 :: r2 =>
              if c2 =? 95 then consume_integer base [] fp r2 (advance p' c2)
              else consume_integer base [] fp r p'
          end
      | None =>
          if is_separator c then handle_bad_read MMissingBase fp i
          else handle_bad_read (MUnknownBase c) fp (r, advance p c)
      end
  end.

(** lexer.rs 433-464: the operators starting with [<] (60) or [>] (62). *)
Definition consume_operator (first : N) (fp : linecol) (i : input) : tokspan * input :=
  let '(t, p) := i in
  match t with
  | c :: r =>
      if first =? 60 then
        if c =? 62 then ((TkNotEqual, fp), (r, advance p c))
        else if c =? 61 then ((TkLessEqual, fp), (r, advance p c))
        else if c =? 60 then ((TkShiftLeft, fp), (r, advance p c))
        else ((TkLess, fp), i)
      else
        if c =? 61 then ((TkGreaterEqual, fp), (r, advance p c))
        else if c =? 62 then ((TkShiftRight, fp), (r, advance p c))
        else ((TkGreater, fp), i)
  | [] => ((if first =? 60 then TkLess else TkGreater, fp), i)
  end.

(** lexer.rs 638-652. *)
Fixpoint consume_rest_of_line (t : list N) (p : linecol) : tokspan * input :=
  match t with
  | [] => ((TkEof, p), ([], p))
  | c :: r => if c =? 10 then ((TkEol, p), (r, advance p c)) else consume_rest_of_line r (advance p c)
  end.

(** lexer.rs 515-562: from the text of a symbol to its token. *)
Definition symbol_token (s : ustr) (vtype : option etype) (fp : linecol) (i : input) : tokspan * input :=
  let up := flat_map uc s in
  if ustr_eqb up (u "REM") then consume_rest_of_line (fst i) (snd i)
  else match keyword up with
       | Some t => ((t, fp), i)
       | None => ((TkSymbol (mkVarRef s vtype), fp), i)
       end.

(** lexer.rs 479-502. *)
Definition annotation (c : N) : option etype :=
  if c =? 63 then Some TBoolean
  else if c =? 35 then Some TDouble
  else if c =? 37 then Some TInteger
  else if c =? 36 then Some TText
  else None.

(** lexer.rs 469-563. *)
Fixpoint consume_symbol (s : ustr) (fp : linecol) (t : list N) (p : linecol) : tokspan * input :=
  match t with
  | [] => symbol_token s None fp ([], p)
  | c :: r =>
      if is_word c then consume_symbol (s ++ [c]) fp r (advance p c)
      else if is_separator c then symbol_token s None fp (t, p)
      else match annotation c with
           | Some ty => symbol_token s (Some ty) fp (r, advance p c)
           | None => handle_bad_read (MUnexpectedInSymbol c) fp (r, advance p c)
           end
  end.

(** lexer.rs 569-599. *)
Fixpoint consume_text (delim : N) (s : ustr) (escaping : bool) (fp : linecol) (t : list N)
    (p : linecol) : tokspan * input :=
  match t with
  | [] => handle_bad_read (MIncompleteString s) fp ([], p)
  | c :: r =>
      if escaping then consume_text delim (s ++ [c]) false fp r (advance p c)
      else if c =? 92 then consume_text delim s true fp r (advance p c)
      else if c =? delim then ((TkText s, fp), (r, advance p c))
      else consume_text delim (s ++ [c]) false fp r (advance p c)
  end.

(** lexer.rs 617-633. *)
Fixpoint label_rest (s : ustr) (fp : linecol) (t : list N) (p : linecol) : tokspan * input :=
  match t with
  | [] => ((TkLabel s, fp), ([], p))
  | c :: r =>
      if is_word c then label_rest (s ++ [c]) fp r (advance p c)
      else if is_separator c then ((TkLabel s, fp), (t, p))
      else handle_bad_read (MUnexpectedInLabel c) fp (t, p)
  end.
(** lexer.rs 602-634. *)
Definition consume_label (fp : linecol) (i : input) : tokspan * input :=
  let '(t, p) := i in
  match t with
  | c :: r =>
      if is_word c && negb (numeric c) then label_rest [c] fp r (advance p c)
      else ((TkBad MEmptyLabel, fp), i)
  | [] => ((TkBad MEmptyLabel, fp), i)
  end.

(** lexer.rs 696-724: the token that starts with [c] at [fp]. *)
Definition read_from (c : N) (fp : linecol) (i : input) : tokspan * input :=
  if (c =? 10) || (c =? 58) then ((TkEol, fp), i)
  else if c =? 39 then consume_rest_of_line (fst i) (snd i)
  else if c =? 34 then consume_text c [] false fp (fst i) (snd i)
  else if c =? 59 then ((TkSemicolon, fp), i)
  else if c =? 44 then ((TkComma, fp), i)
  else if c =? 40 then ((TkLeftParen, fp), i)
  else if c =? 41 then ((TkRightParen, fp), i)
  else if c =? 43 then ((TkPlus, fp), i)
  else if c =? 45 then ((TkMinus, fp), i)
  else if c =? 42 then ((TkMultiply, fp), i)
  else if c =? 47 then ((TkDivide, fp), i)
  else if c =? 94 then ((TkExponent, fp), i)
  else if c =? 61 then ((TkEqual, fp), i)
  else if (c =? 60) || (c =? 62) then consume_operator c fp i
  else if c =? 64 then consume_label fp i
  else if c =? 38 then consume_integer_with_base fp i
  else if is_ascii_digit c then consume_number [c] false fp (fst i) (snd i)
  else if is_word c then consume_symbol [c] fp (fst i) (snd i)
  else handle_bad_read (MUnknownCharacter c) fp i.

(** lexer.rs 656-665 and 690-695: skips spaces and reads one token. *)
Fixpoint read_token (t : list N) (p : linecol) : tokspan * input :=
  match t with
  | [] => ((TkEof, p), ([], p))
  | c :: r => if is_space c then read_token r (advance p c) else read_from c p (r, advance p c)
  end.

(** lexer.rs 671-725.  The recursive call of line 681 is at the start of the second line or at the
    end, so that it never meets [#] at 1:1 again; here it is a call to the rest of the function. *)
Definition read (i : input) : tokspan * input :=
  let '(t, p) := i in
  match t with
  | c :: r =>
      if (fst p =? 1) && (snd p =? 1) && (c =? 35) then
        match r with
        | c2 :: r2 =>
            if c2 =? 33 then
              let '(_, (t', p')) := consume_rest_of_line r2 (advance (advance p c) c2) in
              read_token t' p'
            else handle_bad_read (MUnknownCharacter 35) p (r, advance p c)
        | [] => handle_bad_read (MUnknownCharacter 35) p (r, advance p c)
        end
      else read_token t p
  | [] => read_token t p
  end.

(** lexer.rs 747-782: all the tokens up to the end of the text and the position of the end.  The
    parser pulls them one by one through [PeekableLexer], and gets the end again and again once
    there.  Every read but the last consumes a character, so that [S (length t)] reads are enough
    ([C26_lexer_terminates]). *)
Fixpoint read_all (fuel : nat) (i : input) : list tokspan * linecol :=
  match fuel with
  | O => ([], snd i)
  | S f =>
      match read i with
      | ((TkEof, p), _) => ([], p)
      | (ts, i') => let '(l, e) := read_all f i' in (ts :: l, e)
      end
  end.
Definition tokens (t : list N) : list tokspan * linecol := read_all (S (length t)) (t, (1, 1)).

End Unicode.
