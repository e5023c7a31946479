(** The parser of expressions (core/src/parser.rs).

    The parser works on the tokens that the lexer gives ([Lex_Model.tokens]): a list of tokens
    followed, again and again, by the end of file at [eof].  The code pulls tokens on demand from
    [PeekableLexer] (lexer.rs 726-782), which gives the same sequence.  I/O errors of the source
    are not modelled here. *)
From Coq Require Import String.
From Verif Require Import Base Bytecode_Model Vm_Model Ast_Model Lex_Model.
Local Open Scope string_scope.
Local Open Scope nat_scope.
Local Open Scope list_scope.

(** parser.rs 27-40: [Error], structured: a fixed message, or one that shows a token, or the
    lexer's.  [PPanic] is a panic of the parser, and [PFuel] stands for the recursion bound of the
    model, which is never met ([C27_parser_terminates]). *)
Inductive parse_msg :=
| PMsg (s : ustr)
| PUnexpected (t : token)
| PUnexpectedInExpr (t : token)
| PLexer (m : lex_msg)
| PShows (s : ustr) (t : token).
Inductive parse_error := PBad (pos : linecol) (m : parse_msg) | PPanic | PFuel.
Definition pres (A : Type) := res parse_error A.
Definition bad {A} (pos : linecol) (s : string) : pres A := Err (PBad pos (PMsg (u s))).

(** The tokens still to read. *)
Definition toks := list tokspan.

(** parser.rs 82-128: [ExprOp]. *)
Inductive expr_op := OpParen | OpBinary (o : binop) | OpUnary (o : unop).

(** parser.rs 157-186. *)
Definition op_priority (o : expr_op) : nat :=
  match o with
  | OpParen => 6
  | OpBinary BPower => 6
  | OpUnary UNegate | OpUnary UNot => 5
  | OpBinary BMultiply | OpBinary BDivide | OpBinary BModulo => 4
  | OpBinary BAdd | OpBinary BSubtract => 3
  | OpBinary BShiftLeft | OpBinary BShiftRight => 2
  | OpBinary BEqual | OpBinary BNotEqual | OpBinary BLess | OpBinary BLessEqual
  | OpBinary BGreater | OpBinary BGreaterEqual => 1
  | OpBinary BAnd | OpBinary BOr | OpBinary BXor => 0
  end.

(** parser.rs 132-153: the tokens that lines 921-936 pass to [ExprOp::from]. *)
Definition binop_of (t : token) : option binop :=
  match t with
  | TkEqual => Some BEqual
  | TkNotEqual => Some BNotEqual
  | TkLess => Some BLess
  | TkLessEqual => Some BLessEqual
  | TkGreater => Some BGreater
  | TkGreaterEqual => Some BGreaterEqual
  | TkPlus => Some BAdd
  | TkMultiply => Some BMultiply
  | TkDivide => Some BDivide
  | TkModulo => Some BModulo
  | TkExponent => Some BPower
  | TkAnd => Some BAnd
  | TkOr => Some BOr
  | TkXor => Some BXor
  | TkShiftLeft => Some BShiftLeft
  | TkShiftRight => Some BShiftRight
  | _ => None
  end.

(** parser.rs 190-196: [ExprOpSpan]. *)
Definition opspan := (expr_op * linecol)%type.

(** parser.rs 205-260.  The stack of expressions has its top first. *)
Definition apply_op (o : opspan) (exprs : list expr) : pres (list expr) :=
  match fst o with
  | OpParen => Ok exprs
  | OpUnary u =>
      match exprs with
      | e :: r => Ok (EUnary u e (snd o) :: r)
      | [] => bad (snd o) "Not enough values to apply operator"
      end
  | OpBinary b =>
      match exprs with
      | rhs :: lhs :: r => Ok (EBinary b lhs rhs (snd o) :: r)
      | _ => bad (snd o) "Not enough values to apply operator"
      end
  end.

Definition is_paren (o : opspan) : bool := match fst o with OpParen => true | _ => false end.

(** parser.rs 909-915, 938-944: applies the operators that bind at least as tightly as [prio]. *)
Fixpoint reduce (prio : nat) (exprs : list expr) (ops : list opspan)
    : pres (list expr * list opspan) :=
  match ops with
  | [] => Ok (exprs, [])
  | o :: r =>
      if is_paren o || (op_priority (fst o) <? prio) then Ok (exprs, ops)
      else
        match apply_op o exprs with
        | Ok exprs' => reduce prio exprs' r
        | Err e => Err e
        end
  end.

(** parser.rs 887-895. *)
Fixpoint close_paren (exprs : list expr) (ops : list opspan) : pres (list expr * list opspan) :=
  match ops with
  | [] => Err PPanic
  | o :: r =>
      match apply_op o exprs with
      | Ok exprs' => if is_paren o then Ok (exprs', r) else close_paren exprs' r
      | Err e => Err e
      end
  end.

(** parser.rs 999-1008. *)
Fixpoint finish (exprs : list expr) (ops : list opspan) : pres (option expr) :=
  match ops with
  | [] => Ok (match exprs with e :: _ => Some e | [] => None end)
  | o :: r =>
      if is_paren o then bad (snd o) "Unbalanced parenthesis"
      else
        match apply_op o exprs with
        | Ok exprs' => finish exprs' r
        | Err e => Err e
        end
  end.

(** parser.rs 807-826: the tokens that end an expression. *)
Definition ends_expr (t : token) (ops : list opspan) : bool :=
  match t with
  | TkEof | TkEol | TkAs | TkComma | TkElse | TkSemicolon | TkThen | TkTo | TkStep => true
  | TkRightParen => negb (existsb is_paren ops)
  | _ => false
  end.

(** parser.rs 830-844: the operand that a token is. *)
Definition operand_of (ts : tokspan) : option expr :=
  match fst ts with
  | TkBoolean b => Some (EBoolean b (snd ts))
  | TkDouble d => Some (EDouble d (snd ts))
  | TkInteger z => Some (EInteger z (snd ts))
  | TkText s => Some (EText s (snd ts))
  | TkSymbol v => Some (ESymbol v (snd ts))
  | _ => None
  end.

Section Eof.
Variable eof : linecol.

(** lexer.rs 747-782: [PeekableLexer::peek] and [consume_peeked]. *)
Definition peek (ts : toks) : tokspan := match ts with [] => (TkEof, eof) | t :: _ => t end.
Definition consume (ts : toks) : toks := tl ts.

(** parser.rs 785-1009, after [first] has been taken: the loop with its two stacks and
    [need_operand], and 732-774: the arguments of a call.  One function calls the other, and the
    model bounds the recursion with a number. *)
Fixpoint expr_loop (n : nat) (exprs : list expr) (ops : list opspan) (need : bool) (ts : toks)
    : pres (option expr * toks) :=
  match n with
  | O => Err PFuel
  | S n' =>
      let '(tok, pos) := peek ts in
      if ends_expr tok ops then
        match finish exprs ops with
        | Ok e => Ok (e, ts)
        | Err x => Err x
        end
      else
        let ts' := consume ts in
        match operand_of (tok, pos) with
        | Some e =>
            if need then expr_loop n' (e :: exprs) ops false ts'
            else bad pos "Unexpected value in expression"
        | None =>
            match tok with
            | TkLeftParen =>
                match exprs, need with
                | ESymbol v vpos :: r, false =>
                    match call_args n' true [] ts' with
                    | Ok (args, ts'') => expr_loop n' (ECall v vpos args :: r) ops false ts''
                    | Err x => Err x
                    end
                | _, false => Err (PBad pos (PUnexpectedInExpr tok))
                | _, true => expr_loop n' exprs ((OpParen, pos) :: ops) true ts'
                end
            | TkRightParen =>
                match close_paren exprs ops with
                | Ok (exprs', ops') => expr_loop n' exprs' ops' false ts'
                | Err x => Err x
                end
            | TkNot => expr_loop n' exprs ((OpUnary UNot, pos) :: ops) true ts'
            | TkMinus =>
                if need then expr_loop n' exprs ((OpUnary UNegate, pos) :: ops) true ts'
                else
                  match reduce (op_priority (OpBinary BSubtract)) exprs ops with
                  | Ok (exprs', ops') =>
                      expr_loop n' exprs' ((OpBinary BSubtract, pos) :: ops') true ts'
                  | Err x => Err x
                  end
            | TkBad m => Err (PBad pos (PLexer m))
            | _ =>
                match binop_of tok with
                | Some b =>
                    match reduce (op_priority (OpBinary b)) exprs ops with
                    | Ok (exprs', ops') => expr_loop n' exprs' ((OpBinary b, pos) :: ops') true ts'
                    | Err x => Err x
                    end
                | None => bad pos "Unexpected keyword in expression"
                end
            end
        end
  end
with call_args (n : nat) (is_first : bool) (spans : list argspan) (ts : toks)
    : pres (list argspan * toks) :=
  match n with
  | O => Err PFuel
  | S n' =>
      match expr_loop n' [] [] true ts with
      | Err x => Err x
      | Ok (prev, ts1) =>
          let '(tok, pos) := peek ts1 in
          match tok, prev with
          | TkRightParen, Some e => Ok (spans ++ [(Some e, SepEnd, pos)], consume ts1)
          | TkRightParen, None =>
              if is_first then Ok (spans, consume ts1) else bad pos "Missing expression"
          | TkComma, Some e => call_args n' false (spans ++ [(Some e, SepLong, pos)]) (consume ts1)
          | TkComma, None => bad pos "Missing expression"
          | _, _ => Err (PBad pos (PUnexpected tok))
          end
      end
  end.

(** A bound that is never met. *)
Definition fuel (ts : toks) : nat := 2 * length ts + 2.

(** parser.rs 785-793. *)
Definition parse_expr (first : option expr) (ts : toks) : pres (option expr * toks) :=
  match first with
  | Some e => expr_loop (fuel ts) [e] [] false ts
  | None => expr_loop (fuel ts) [] [] true ts
  end.

(** parser.rs 732-774. *)
Definition parse_comma_separated_exprs (ts : toks) : pres (list argspan * toks) :=
  call_args (fuel ts) true [] ts.

(** parser.rs 1013-1019. *)
Definition parse_required_expr (msg : string) (ts : toks) : pres (expr * toks) :=
  match parse_expr None ts with
  | Ok (Some e, ts') => Ok (e, ts')
  | Ok (None, _) => bad (snd (peek ts)) msg
  | Err x => Err x
  end.

End Eof.
