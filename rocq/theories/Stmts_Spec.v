(** How statements are written, independently of the parser. *)
From Coq Require Import String.
From Verif Require Import Base Bytecode_Model Num_Model Vm_Model Ast_Model Strings_Model Lex_Model Parse_Spec.
Local Open Scope nat_scope.
Local Open Scope list_scope.

(** The tokens [w] write the expression [e]; or nothing, when it is missing. *)
Definition writing (e : expr) (w : list tokspan) : Prop := exists h t, writes e w h t.
Definition maybe (o : option expr) (w : list tokspan) : Prop :=
  match o with Some e => writing e w | None => w = [] end.

(** What comes right after a statement: the end of the line, the end of the file, or an ELSE. *)
Definition stops (s : tokspan) : Prop := In (fst s) [TkEol; TkEof; TkElse].

(** A line number or a label. *)
Inductive names_label : token -> ustr -> Prop :=
| nl_number z : names_label (TkInteger z) (to_string z)
| nl_label name : names_label (TkLabel name) name.

(** A datum of DATA: a literal, with an optional minus sign if it is a number. *)
Inductive datum : option expr -> list tokspan -> Prop :=
| dt_none : datum None []
| dt_boolean b p : datum (Some (EBoolean b p)) [(TkBoolean b, p)]
| dt_double d p : datum (Some (EDouble d p)) [(TkDouble d, p)]
| dt_integer z p : datum (Some (EInteger z p)) [(TkInteger z, p)]
| dt_text s p : datum (Some (EText s p)) [(TkText s, p)]
| dt_minus_double d p q : datum (Some (EDouble (f64_neg d) p)) [(TkMinus, p); (TkDouble d, q)]
| dt_minus_integer z p q : datum (Some (EInteger (wrap_i32 (- z)) p)) [(TkMinus, p); (TkInteger z, q)].
Inductive data_list : list (option expr) -> list tokspan -> Prop :=
| dl_last d w : datum d w -> data_list [d] w
| dl_more d w p l wl : datum d w -> data_list l wl -> data_list (d :: l) (w ++ (TkComma, p) :: wl).

(** The arguments of a command: expressions, any of which may be missing, with the separators
    between them; what ends the statement ends the last one. *)
Inductive separator : argsep -> token -> Prop :=
| sp_short : separator SepShort TkSemicolon
| sp_long : separator SepLong TkComma
| sp_as : separator SepAs TkAs.
Inductive command_args : list argspan -> list tokspan -> linecol -> Prop :=
| ca_last o w stop : maybe o w -> command_args [(o, SepEnd, stop)] w stop
| ca_more o w sep t p args wa stop : maybe o w -> separator sep t -> command_args args wa stop ->
    command_args ((o, sep, p) :: args) (w ++ (t, p) :: wa) stop.

(** The expressions of the subscripts of an array. *)
Definition subscripts (args : list argspan) (es : list expr) : Prop :=
  map (fun a : argspan => fst (fst a)) args = map Some es.

(** [w] begins with an expression in parentheses and an equal sign: after a name, that is an
    assignment to an element of an array. *)
Definition assigns_element (w : list tokspan) : Prop :=
  exists p e we q r w', writing e we /\
    w = (TkLeftParen, p) :: we ++ (TkRightParen, q) :: (TkEqual, r) :: w'.

(** The statements that can be in a one-line IF.  [stop] is the token after the statement. *)
Inductive simple : stmt -> list tokspan -> tokspan -> Prop :=
| si_data l w p stop : data_list l w -> simple (StData l) ((TkData, p) :: w) stop
| si_end o w p stop : maybe o w -> simple (StEnd o p) ((TkEnd, p) :: w) stop
| si_exit_do p q stop : simple (StExitDo p) [(TkExit, p); (TkDo, q)] stop
| si_exit_for p q stop : simple (StExitFor p) [(TkExit, p); (TkFor, q)] stop
| si_exit_function p q stop : simple (StExitFunction p) [(TkExit, p); (TkFunction, q)] stop
| si_exit_sub p q stop : simple (StExitSub p) [(TkExit, p); (TkSub, q)] stop
| si_gosub p t q name stop : names_label t name -> simple (StGosub name q) [(TkGosub, p); (t, q)] stop
| si_goto p t q name stop : names_label t name -> simple (StGoto name q) [(TkGoto, p); (t, q)] stop
| si_on_goto p q r t s name stop : names_label t name -> t <> TkInteger 0 ->
    simple (StOnError (OnGoto name s p)) [(TkOn, p); (TkError, q); (TkGoto, r); (t, s)] stop
| si_on_reset p q r s stop :
    simple (StOnError (OnReset p)) [(TkOn, p); (TkError, q); (TkGoto, r); (TkInteger 0, s)] stop
| si_on_resume p q r s stop :
    simple (StOnError (OnResumeNext p)) [(TkOn, p); (TkError, q); (TkResume, r); (TkNext, s)] stop
| si_return p stop : simple (StReturn p) [(TkReturn, p)] stop
| si_assignment v p q e w stop : writing e w ->
    simple (StAssignment v p e) ((TkSymbol v, p) :: (TkEqual, q) :: w) stop
| si_element v p q args wa es r e w stop : writes_args args wa -> subscripts args es -> writing e w ->
    simple (StArrayAssignment v p es e)
      ((TkSymbol v, p) :: (TkLeftParen, q) :: wa ++ (TkEqual, r) :: w) stop
| si_command name p stop : simple (StCall (mkVarRef (ascii_upper name) None) p [])
    [(TkSymbol (mkVarRef name None), p)] stop
| si_command_args name p args w stop : command_args args w (snd stop) -> args <> [(None, SepEnd, snd stop)] ->
    ~ assigns_element w ->
    simple (StCall (mkVarRef (ascii_upper name) None) p args) ((TkSymbol (mkVarRef name None), p) :: w) stop.

(** The types of AS. *)
Inductive names_type : token -> etype -> Prop :=
| nt_boolean : names_type TkBooleanName TBoolean
| nt_double : names_type TkDoubleName TDouble
| nt_integer : names_type TkIntegerName TInteger
| nt_text : names_type TkTextName TText.
(** The optional type of a DIM: an integer if there is none. *)
Inductive dim_type : etype -> list tokspan -> Prop :=
| dy_default : dim_type TInteger []
| dy_as t e p q : names_type t e -> dim_type e [(TkAs, p); (t, q)].
Inductive dim_scope : bool -> list tokspan -> Prop :=
| ds_local : dim_scope false []
| ds_shared p : dim_scope true [(TkShared, p)].

(** The parameters of a function or subroutine, with their parentheses if there are any. *)
Inductive param : varref -> list tokspan -> Prop :=
| pa_plain v p : param v [(TkSymbol v, p)]
| pa_as name p q t e r : names_type t e ->
    param (mkVarRef name (Some e)) [(TkSymbol (mkVarRef name None), p); (TkAs, q); (t, r)].
Inductive param_list : list varref -> list tokspan -> Prop :=
| pl_last v w q : param v w -> param_list [v] (w ++ [(TkRightParen, q)])
| pl_more v w q l wl : param v w -> param_list l wl -> param_list (v :: l) (w ++ (TkComma, q) :: wl).
Inductive params : list varref -> list tokspan -> Prop :=
| ps_none : params [] []
| ps_some p l w : param_list l w -> params l ((TkLeftParen, p) :: w).
(** The name and parameters: a function without annotation gives an integer, and a subroutine has
    no annotation. *)
Inductive signature : token -> varref -> linecol -> list varref -> list tokspan -> Prop :=
| sg_function v p l w : params l w ->
    signature TkFunction
      (mkVarRef (vr_name v) (Some (match vr_type v with Some t => t | None => TInteger end))) p l
      ((TkSymbol v, p) :: w)
| sg_sub name p l w : params l w ->
    signature TkSub (mkVarRef name None) p l ((TkSymbol (mkVarRef name None), p) :: w).

(** The guard of a loop, after the DO or the LOOP. *)
Inductive guard : option (bool * expr) -> list tokspan -> Prop :=
| gu_none : guard None []
| gu_until p e w : writing e w -> guard (Some (true, e)) ((TkUntil, p) :: w)
| gu_while p e w : writing e w -> guard (Some (false, e)) ((TkWhile, p) :: w).
Inductive do_guards : do_guard -> option (bool * expr) -> option (bool * expr) -> Prop :=
| dg_infinite : do_guards GInfinite None None
| dg_pre_until e : do_guards (GPreUntil e) (Some (true, e)) None
| dg_pre_while e : do_guards (GPreWhile e) (Some (false, e)) None
| dg_post_until e : do_guards (GPostUntil e) None (Some (true, e))
| dg_post_while e : do_guards (GPostWhile e) None (Some (false, e)).

(** The step of a FOR that begins at [for_pos]: a literal number other than zero.  Gives the step as
    an expression, whether it is positive, and whether it is a double. *)
Inductive step (for_pos : linecol) : expr -> bool -> bool -> list tokspan -> Prop :=
| sp_default : step for_pos (EInteger 1 for_pos) true false []
| sp_integer z p q : z <> 0%Z -> step for_pos (EInteger z q) (0 <? z)%Z false [(TkStep, p); (TkInteger z, q)]
| sp_double d p q : f64_eq d 0 = false -> step for_pos (EDouble d q) true true [(TkStep, p); (TkDouble d, q)]
| sp_minus_integer z p m q : wrap_i32 (- z) <> 0%Z ->
    step for_pos (EInteger (wrap_i32 (- z)) q) (0 <? wrap_i32 (- z))%Z false
      [(TkStep, p); (TkMinus, m); (TkInteger z, q)]
| sp_minus_double d p m q : f64_eq d 0 = false ->
    step for_pos (EDouble (f64_neg d) q) false true [(TkStep, p); (TkMinus, m); (TkDouble d, q)].

Definition numeric_name (v : varref) : Prop :=
  vr_type v = None \/ vr_type v = Some TDouble \/ vr_type v = Some TInteger.

(** The guards of a CASE. *)
Inductive relop : case_relop -> token -> Prop :=
| ro_equal : relop REqual TkEqual
| ro_not_equal : relop RNotEqual TkNotEqual
| ro_less : relop RLess TkLess
| ro_less_equal : relop RLessEqual TkLessEqual
| ro_greater : relop RGreater TkGreater
| ro_greater_equal : relop RGreaterEqual TkGreaterEqual.
Inductive case_test : case_guard -> list tokspan -> Prop :=
| ct_value e w : writing e w -> case_test (CIs REqual e) w
| ct_is p o t q e w : relop o t -> writing e w -> case_test (CIs o e) ((TkIs, p) :: (t, q) :: w)
| ct_to e1 w1 p e2 w2 : writing e1 w1 -> writing e2 w2 -> case_test (CTo e1 e2) (w1 ++ (TkTo, p) :: w2).
Inductive case_tests : list case_guard -> list tokspan -> Prop :=
| cs_last g w : case_test g w -> case_tests [g] w
| cs_more g w p l wl : case_test g w -> case_tests l wl -> case_tests (g :: l) (w ++ (TkComma, p) :: wl).

(** The parts of a one-line IF with an ELSE.  The first can be empty, and so can the second, at the
    end of the file or, when it is the end of a line, before another one. *)
Inductive then_part : list stmt -> list tokspan -> tokspan -> Prop :=
| tp_none stop : then_part [] [] stop
| tp_some st w stop : simple st w stop -> then_part [st] w stop.
Inductive else_part : list stmt -> list tokspan -> tokspan -> Prop :=
| ep_some st w stop : simple st w stop -> else_part [st] w stop
| ep_eof p : else_part [] [] (TkEof, p)
| ep_eol p stop : else_part [] [(TkEol, p)] stop.

Definition is_callable (st : stmt) : Prop :=
  match st with StCallable _ _ _ _ _ => True | _ => False end.

(** [statement st w stop]: the tokens [w] write the statement, right before the token [stop].
    [lines l w]: they write the statements [l], with the ends of their lines.  A label needs no end
    of line, and there can be empty lines.
    [branch_body l w next]: they write the statements of a branch of an IF before the tokens
    [next]; an END statement needs no end of line before ELSE.
    [branches l w]: the branches of an IF after the first line, up to its END.
    [cases l w]: the cases of a SELECT, up to its END. *)
Inductive statement : stmt -> list tokspan -> tokspan -> Prop :=
| st_simple st w stop : simple st w stop -> statement st w stop
| st_declare p t q name np l w stop : signature t name np l w ->
    statement (StDeclare name np l) ((TkDeclare, p) :: (t, q) :: w) stop
| st_dim p sh ws name np t wt stop : dim_scope sh ws -> dim_type t wt ->
    statement (StDim name np sh t)
      ((TkDim, p) :: ws ++ (TkSymbol (mkVarRef name None), np) :: wt) stop
| st_dim_array p sh ws name np q args wa es t wt stop : dim_scope sh ws -> writes_args args wa ->
    subscripts args es -> es <> [] -> dim_type t wt ->
    statement (StDimArray name np sh es t)
      ((TkDim, p) :: ws ++ (TkSymbol (mkVarRef name None), np) :: (TkLeftParen, q) :: wa ++ wt) stop
| st_do p g pre wpre q body wb r post wpost stop : do_guards g pre post -> guard pre wpre -> guard post wpost ->
    lines body wb ->
    statement (StDo g body)
      ((TkDo, p) :: wpre ++ (TkEol, q) :: wb ++ (TkLoop, r) :: wpost) stop
| st_while p e w q body wb r stop : writing e w -> lines body wb ->
    statement (StWhile e body) ((TkWhile, p) :: w ++ (TkEol, q) :: wb ++ [(TkWend, r)]) stop
| st_for p v vp q e1 w1 r e2 w2 st up dbl ws nl body wb np stop : numeric_name v -> writing e1 w1 ->
    writing e2 w2 -> step p st up dbl ws -> lines body wb ->
    statement
      (StFor v vp dbl e1 (EBinary (if up : bool then BLessEqual else BGreaterEqual) (ESymbol v vp) e2 r)
         (EBinary BAdd (ESymbol v vp) st r) body)
      ((TkFor, p) :: (TkSymbol v, vp) :: (TkEqual, q) :: w1 ++ (TkTo, r) :: w2 ++ ws ++ (TkEol, nl) ::
       wb ++ [(TkNext, np)]) stop
| st_if p e w q nl body wb rest wr ep ip stop : writing e w -> branch_body body wb wr -> branches rest wr ->
    statement (StIf ((e, body) :: rest))
      ((TkIf, p) :: w ++ (TkThen, q) :: (TkEol, nl) :: wb ++ wr ++ [(TkEnd, ep); (TkIf, ip)]) stop
| st_if_line p e w q st ws stop : writing e w -> simple st ws stop ->
    statement (StIf [(e, [st])]) ((TkIf, p) :: w ++ (TkThen, q) :: ws) stop
| st_if_else_line p e w q body1 w1 r body2 w2 stop : writing e w -> then_part body1 w1 (TkElse, r) ->
    else_part body2 w2 stop ->
    statement (StIf [(e, body1); (EBoolean true r, body2)])
      ((TkIf, p) :: w ++ (TkThen, q) :: w1 ++ (TkElse, r) :: w2) stop
| st_select p q e w nl ws l wl ep sp stop : writing e w -> lines [] ws -> cases l wl ->
    statement (StSelect e l ep)
      ((TkSelect, p) :: (TkCase, q) :: w ++ (TkEol, nl) :: ws ++ wl ++ [(TkEnd, ep); (TkSelect, sp)]) stop
| st_callable t p name np l w nl body wb ep ep' stop : signature t name np l w -> lines body wb ->
    (forall st, In st body -> ~ is_callable st) ->
    statement (StCallable name np l body ep)
      ((t, p) :: w ++ (TkEol, nl) :: wb ++ [(TkEnd, ep); (t, ep')]) stop
with lines : list stmt -> list tokspan -> Prop :=
| ln_none : lines [] []
| ln_empty p l w : lines l w -> lines l ((TkEol, p) :: w)
| ln_label t name p l w : names_label t name -> lines l w -> lines (StLabel name p :: l) ((t, p) :: w)
| ln_statement st w p l wl : statement st w (TkEol, p) -> lines l wl ->
    lines (st :: l) (w ++ (TkEol, p) :: wl)
with branch_body : list stmt -> list tokspan -> list tokspan -> Prop :=
| bb_lines body w next : lines body w -> branch_body body w next
| bb_end body w o we p q next : lines body w -> maybe o we ->
    branch_body (body ++ [StEnd o p]) (w ++ (TkEnd, p) :: we) ((TkElse, q) :: next)
with branches : list (expr * list stmt) -> list tokspan -> Prop :=
| br_none : branches [] []
| br_else p q body wb : lines body wb ->
    branches [(EBoolean true p, body)] ((TkElse, p) :: (TkEol, q) :: wb)
| br_elseif p e w q nl body wb rest wr : writing e w -> branch_body body wb wr -> branches rest wr ->
    branches ((e, body) :: rest) ((TkElseif, p) :: w ++ (TkThen, q) :: (TkEol, nl) :: wb ++ wr)
with cases : list (list case_guard * list stmt) -> list tokspan -> Prop :=
| cc_none : cases [] []
| cc_else p q nl body wb : lines body wb ->
    cases [([], body)] ((TkCase, p) :: (TkElse, q) :: (TkEol, nl) :: wb)
| cc_case p gs w nl body wb rest wr : case_tests gs w -> lines body wb -> cases rest wr ->
    cases ((gs, body) :: rest) ((TkCase, p) :: w ++ (TkEol, nl) :: wb ++ wr).

Scheme statement_mind := Induction for statement Sort Prop
with lines_mind := Induction for lines Sort Prop
with branch_body_mind := Induction for branch_body Sort Prop
with branches_mind := Induction for branches Sort Prop
with cases_mind := Induction for cases Sort Prop.
Combined Scheme statement_mutind from statement_mind, lines_mind, branch_body_mind,
  branches_mind, cases_mind.

(** A program, whose last line may end at the end of the file, at [eof]. *)
Inductive program (eof : linecol) : list stmt -> list tokspan -> Prop :=
| pg_lines l w : lines l w -> program eof l w
| pg_last l w st ws : lines l w -> statement st ws (TkEof, eof) -> program eof (l ++ [st]) (w ++ ws).

(** The beginning of a statement: at the beginning of a line, after labels, or after THEN or ELSE. *)
Inductive statement_begins : list tokspan -> Prop :=
| sb_file : statement_begins []
| sb_after a t p : In t [TkEol; TkThen; TkElse] -> statement_begins (a ++ [(t, p)])
| sb_label a t name p : names_label t name -> statement_begins a -> statement_begins (a ++ [(t, p)]).

(** The tokens of a program, without the three forms of expressions that [usual] leaves out.  A NOT
    can follow the name of a command. *)
Record usual_program (w : list tokspan) : Prop := {
  up_not : forall a b x p q, w = a ++ (x, p) :: (TkNot, q) :: b -> ends_operand x ->
    (exists v, x = TkSymbol v) /\ statement_begins a;
  up_call : forall a b p q, w <> a ++ (TkRightParen, p) :: (TkLeftParen, q) :: b;
  up_empty : forall a b p q, w = a ++ (TkLeftParen, p) :: (TkRightParen, q) :: b ->
    exists a' v r, a = a' ++ [(TkSymbol v, r)];
  (* The lexer gives the end of the file once, after all the others. *)
  up_eof : forall p, ~ In (TkEof, p) w
}.
