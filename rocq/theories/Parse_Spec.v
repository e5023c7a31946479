(** How expressions are written, by operator precedence, independently of the parser. *)
From Coq Require Import String.
From Verif Require Import Base Bytecode_Model Vm_Model Ast_Model Lex_Model.
Local Open Scope nat_scope.
Local Open Scope list_scope.

(** How tightly each binary operator binds. *)
Definition level (o : binop) : nat :=
  match o with
  | BAnd | BOr | BXor => 0
  | BEqual | BNotEqual | BLess | BLessEqual | BGreater | BGreaterEqual => 1
  | BShiftLeft | BShiftRight => 2
  | BAdd | BSubtract => 3
  | BMultiply | BDivide | BModulo => 4
  | BPower => 6
  end.
(** NOT and the unary minus stand between the power and the products. *)
Definition unary_level : nat := 5.
(** Above every operator. *)
Definition closed : nat := 7.

Definition binop_token (o : binop) : token :=
  match o with
  | BAdd => TkPlus | BSubtract => TkMinus | BMultiply => TkMultiply | BDivide => TkDivide
  | BModulo => TkModulo | BPower => TkExponent
  | BEqual => TkEqual | BNotEqual => TkNotEqual | BLess => TkLess | BLessEqual => TkLessEqual
  | BGreater => TkGreater | BGreaterEqual => TkGreaterEqual
  | BAnd => TkAnd | BOr => TkOr | BXor => TkXor
  | BShiftLeft => TkShiftLeft | BShiftRight => TkShiftRight
  end.
Definition unop_token (o : unop) : token := match o with UNegate => TkMinus | UNot => TkNot end.

(** [writes e w h t]: the tokens [w] are a way of writing [e].  [h] is the loosest level of the
    operators that are open on the left of [w], that is, whose left operand starts [w], and [t]
    the loosest level of those open on its right; [closed] means that there are none.

    An operand needs no parentheses on the left of an operator of level [p] when what is open on
    its right binds at least as tightly ([p <= t], so that operators of the same level associate to
    the left), and none on the right of it when what is open on its left binds more tightly
    ([p < h]).  Parentheses can surround anything. *)
Inductive writes : expr -> list tokspan -> nat -> nat -> Prop :=
| w_boolean b p : writes (EBoolean b p) [(TkBoolean b, p)] closed closed
| w_double d p : writes (EDouble d p) [(TkDouble d, p)] closed closed
| w_integer z p : writes (EInteger z p) [(TkInteger z, p)] closed closed
| w_text s p : writes (EText s p) [(TkText s, p)] closed closed
| w_symbol v p : writes (ESymbol v p) [(TkSymbol v, p)] closed closed
| w_parens e w h t p q : writes e w h t ->
    writes e ((TkLeftParen, p) :: w ++ [(TkRightParen, q)]) closed closed
| w_binary o l wl hl tl r wr hr tr p : writes l wl hl tl -> writes r wr hr tr ->
    level o <= tl -> level o < hr ->
    writes (EBinary o l r p) (wl ++ (binop_token o, p) :: wr)
      (Nat.min hl (level o)) (Nat.min (level o) tr)
| w_unary o e w h t p : writes e w h t -> unary_level < h ->
    writes (EUnary o e p) ((unop_token o, p) :: w) closed (Nat.min unary_level t)
| w_call v vp p args w : writes_args args w ->
    writes (ECall v vp args) ((TkSymbol v, vp) :: (TkLeftParen, p) :: w) closed closed
(** Arguments, separated by commas, with the parenthesis that ends them. *)
with writes_args : list argspan -> list tokspan -> Prop :=
| wa_none q : writes_args [] [(TkRightParen, q)]
| wa_some args w : writes_some args w -> writes_args args w
with writes_some : list argspan -> list tokspan -> Prop :=
| ws_last e w h t q : writes e w h t ->
    writes_some [(Some e, SepEnd, q)] (w ++ [(TkRightParen, q)])
| ws_more e w h t q args wa : writes e w h t -> writes_some args wa ->
    writes_some ((Some e, SepLong, q) :: args) (w ++ (TkComma, q) :: wa).

Scheme writes_mind := Induction for writes Sort Prop
with writes_args_mind := Induction for writes_args Sort Prop
with writes_some_mind := Induction for writes_some Sort Prop.
Combined Scheme writes_mutind from writes_mind, writes_args_mind, writes_some_mind.

(** What may follow an expression. *)
Definition ends (t : token) : Prop :=
  In t [TkEof; TkEol; TkAs; TkComma; TkElse; TkSemicolon; TkThen; TkTo; TkStep; TkRightParen].
(** [rest] begins with something that ends an expression. *)
Definition at_end (rest : list tokspan) : Prop :=
  match rest with [] => True | (t, _) :: _ => ends t end.

(** Expressions that have a source form: arguments of calls are expressions separated by commas. *)
Fixpoint args_shape (args : list argspan) : Prop :=
  match args with
  | [] => True
  | [(o, s, _)] => o <> None /\ s = SepEnd
  | (o, s, _) :: r => o <> None /\ s = SepLong /\ args_shape r
  end.
Inductive written : expr -> Prop :=
| wr_boolean b p : written (EBoolean b p)
| wr_double d p : written (EDouble d p)
| wr_integer z p : written (EInteger z p)
| wr_text s p : written (EText s p)
| wr_symbol v p : written (ESymbol v p)
| wr_binary o l r p : written l -> written r -> written (EBinary o l r p)
| wr_unary o e p : written e -> written (EUnary o e p)
| wr_call v vp args : args_shape args ->
    (forall e s q, In (Some e, s, q) args -> written e) ->
    written (ECall v vp args).

(** One writing of each tree, with parentheses only where the levels require them.  The
    parentheses are all at [pp], and so are those of calls.  Gives the tokens and the levels open
    on the left and on the right. *)
Section Print.
Variable pp : linecol.
Definition parens (need : bool) (x : list tokspan * nat * nat) : list tokspan * nat * nat :=
  if need then ((TkLeftParen, pp) :: fst (fst x) ++ [(TkRightParen, pp)], closed, closed) else x.

Fixpoint print (e : expr) : list tokspan * nat * nat :=
  match e with
  | EBoolean b p => ([(TkBoolean b, p)], closed, closed)
  | EDouble d p => ([(TkDouble d, p)], closed, closed)
  | EInteger z p => ([(TkInteger z, p)], closed, closed)
  | EText s p => ([(TkText s, p)], closed, closed)
  | ESymbol v p => ([(TkSymbol v, p)], closed, closed)
  | EBinary o l r p =>
      let '(wl, hl, tl) := (let x := print l in parens (snd x <? level o) x) in
      let '(wr, hr, tr) := (let x := print r in parens (snd (fst x) <=? level o) x) in
      (wl ++ (binop_token o, p) :: wr, Nat.min hl (level o), Nat.min (level o) tr)
  | EUnary o x p =>
      let '(w, h, t) := (let x := print x in parens (snd (fst x) <=? unary_level) x) in
      ((unop_token o, p) :: w, closed, Nat.min unary_level t)
  | ECall v vp args =>
      ((TkSymbol v, vp) :: (TkLeftParen, pp) ::
       (fix print_args (l : list argspan) : list tokspan :=
          match l with
          | [] => [(TkRightParen, pp)]
          | (o, s, q) :: r =>
              match o with Some e => fst (fst (print e)) | None => [] end ++
              match s with SepEnd => [(TkRightParen, q)] | _ => (TkComma, q) :: print_args r end
          end) args,
       closed, closed)
  end.
End Print.


(** The tokens that end an operand. *)
Definition ends_operand (t : token) : Prop :=
  match t with
  | TkBoolean _ | TkDouble _ | TkInteger _ | TkText _ | TkSymbol _ | TkRightParen => True
  | _ => False
  end.
(** No NOT right after an operand, no opening parenthesis right after a closing one, and no empty
    parentheses other than those of a call. *)
Record usual (w : list tokspan) : Prop := {
  us_not : forall a b x p q, w = a ++ (x, p) :: (TkNot, q) :: b -> ~ ends_operand x;
  us_call : forall a b p q, w <> a ++ (TkRightParen, p) :: (TkLeftParen, q) :: b;
  us_empty : forall a b p q, w = a ++ (TkLeftParen, p) :: (TkRightParen, q) :: b ->
    exists a' v r, a = a' ++ [(TkSymbol v, r)]
}.
