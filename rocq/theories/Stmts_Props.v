(** Claim C65: statements and programs are parsed as they are written. *)
From Coq Require Import String.
From Verif Require Import Base Bytecode_Model Num_Model Vm_Model Ast_Model Strings_Model Lex_Model Lex_Spec Lex_Proofs
  Parse_Model Parse_Spec Parse_Proofs Stmts_Model Stmts_Spec Stmts_Proofs StmtsEnd_Proofs StmtsConv_Proofs.
Local Open Scope string_scope.
Local Open Scope nat_scope.
Local Open Scope list_scope.

(** Every writing of a program, of any size and with statements inside others to any depth, is
    parsed as that program, with its positions. *)
Theorem C65_programs_parse : forall eof l w, program eof l w -> parse_stmts eof w = (l, None).
Proof. exact program_parses. Qed.
Print Assumptions C65_programs_parse.

(** So what is written has one meaning: in particular, an ELSE or an END belongs to one statement. *)
Theorem C65_one_meaning : forall eof l l' w, program eof l w -> program eof l' w -> l = l'.
Proof.
  intros eof l l' w P P'. pose proof (program_parses eof l w P) as E. pose proof (program_parses eof l' w P') as E'.
  congruence.
Qed.
Print Assumptions C65_one_meaning.

(** And nothing else is accepted: what the parser takes without an error is a program, the one that
    it gives. *)
Theorem C65_only_programs : forall eof l w, usual_program w -> (parse_stmts eof w = (l, None) <-> program eof l w).
Proof. intros eof l w U. split; [apply program_converse; exact U|apply program_parses]. Qed.
Print Assumptions C65_only_programs.

(** On any tokens at all, the parser ends, with the statements or an error of the program: it never
    meets the assertions of the code, nor the bounds of the model. *)
Theorem C65_parser_terminates : forall eof w, snd (parse_stmts eof w) <> Some PFuel /\ snd (parse_stmts eof w) <> Some PPanic.
Proof. intros eof w. apply parse_all_total. lia. Qed.
Print Assumptions C65_parser_terminates.

(** The statements of the lines before an error are given, before the error. *)
Theorem C65_before_error : forall eof l w rest, lines l w -> exists l', fst (parse_stmts eof (w ++ rest)) = l ++ l'.
Proof.
  intros eof l w rest L. destruct (all_lines eof l w L [] (Forall_nil _) (S (length (w ++ rest))) rest) as (k & es' & _ & _ & E).
  { cbn [app]. lia. }
  cbn [app] in E. eexists. unfold parse_stmts. rewrite E. reflexivity.
Qed.
Print Assumptions C65_before_error.

(** From the text. *)
Theorem C65_text : forall alnum numeric uc, tables_ok alnum numeric uc ->
  forall text w end_ l, tokenised alnum numeric uc text (1, 1)%N w end_ -> program end_ l w ->
  parse_stmts end_ (fst (tokens alnum numeric uc text)) = (l, None).
Proof.
  intros alnum numeric uc TO text w end_ l T P.
  unfold tokens. rewrite (tokenised_read_all alnum numeric uc TO _ _ _ _ T) by lia.
  apply program_parses. exact P.
Qed.
Print Assumptions C65_text.

(** An IF on one line can end with ELSE at the end of the file, but not before another line: the
    ELSE takes the end of its own line, and the next statement is refused. *)
Theorem C65_lines_independent_refuted :
  ~ (forall eof l w l' w' p, program eof l w -> program eof l' w' -> exists l'', parse_stmts eof (w ++ (TkEol, p) :: w') = (l'', None)).
Proof.
  intros H. pose (p := (1, 1)%N).
  pose (w := [(TkIf, p); (TkBoolean true, p); (TkThen, p); (TkReturn, p); (TkElse, p)]).
  destruct (H p [StIf [(EBoolean true p, [StReturn p]); (EBoolean true p, [])]] w [StReturn p] [(TkReturn, p)] p) as [l'' E].
  - apply (pg_last p [] []); [constructor|].
    apply (st_if_else_line p _ [(TkBoolean true, p)] p [StReturn p] [(TkReturn, p)] p [] []); [|repeat constructor|constructor].
    do 2 eexists. constructor.
  - apply (pg_last p [] []); repeat constructor.
  - cbv in E. discriminate E.
Qed.
Print Assumptions C65_lines_independent_refuted.

(** A command whose arguments begin with an expression in parentheses followed by an equal sign is
    an assignment to an element of an array. *)
Theorem C65_command_comparison_refuted :
  ~ (forall eof name p e w, writing e w -> exists args, parse_stmts eof ((TkSymbol (mkVarRef name None), p) :: w) =
       ([StCall (mkVarRef (ascii_upper name) None) p args], None)).
Proof.
  intros H. pose (p := (1, 1)%N).
  destruct (H p (u "print") p (EBinary BEqual (EInteger 1 p) (EInteger 2 p) p)
    [(TkLeftParen, p); (TkInteger 1, p); (TkRightParen, p); (TkEqual, p); (TkInteger 2, p)]) as [args E].
  - do 2 eexists. apply (w_binary BEqual (EInteger 1 p) [(TkLeftParen, p); (TkInteger 1, p); (TkRightParen, p)] closed closed (EInteger 2 p) [(TkInteger 2, p)] closed closed p);
      [apply (w_parens (EInteger 1 p) [(TkInteger 1, p)] closed closed p p); constructor|constructor|cbv; lia|cbv; lia].
  - cbv in E. discriminate E.
Qed.
Print Assumptions C65_command_comparison_refuted.

Local Open Scope N_scope.
Definition nl : list N := [10].
Example C65_case :
  let alnum := fun c => ((65 <=? c) && (c <=? 90)) || ((97 <=? c) && (c <=? 122)) || ((48 <=? c) && (c <=? 57)) in
  let numeric := fun c => (48 <=? c) && (c <=? 57) in
  let upper := map (fun c => if (97 <=? c) && (c <=? 122) then c - 32 else c) in
  let parse := fun text => let '(l, e) := tokens alnum numeric (fun c => upper [c]) text in parse_stmts e l in
  let v := fun name => mkVarRef (u name) None in
  (* A loop inside a branch of an IF inside another, with an empty line, a label and an END. *)
  parse (u "IF a THEN" ++ nl ++ nl ++ u "@x: FOR i = 9 TO b STEP -2" ++ nl ++ u "print i; 1," ++ nl ++ u "NEXT" ++ nl ++
         u "ELSEIF b THEN" ++ nl ++ u "IF c THEN END 3 ELSE d(1) = 2" ++ nl ++ u "END IF") =
    ([StIf [(ESymbol (v "a") (1, 4),
             [StLabel (u "x") (3, 1);
              StFor (v "i") (3, 9) false (EInteger 9 (3, 13))
                (EBinary BGreaterEqual (ESymbol (v "i") (3, 9)) (ESymbol (v "b") (3, 18)) (3, 15))
                (EBinary BAdd (ESymbol (v "i") (3, 9)) (EInteger (-2) (3, 26)) (3, 15))
                [StCall (v "PRINT") (4, 1)
                   [(Some (ESymbol (v "i") (4, 7)), SepShort, (4, 8)); (Some (EInteger 1 (4, 10)), SepLong, (4, 11));
                    (None, SepEnd, (4, 12))]]]);
            (ESymbol (v "b") (6, 8),
             [StIf [(ESymbol (v "c") (7, 4), [StEnd (Some (EInteger 3 (7, 15))) (7, 11)]);
                    (EBoolean true (7, 17), [StArrayAssignment (v "d") (7, 22) [EInteger 1 (7, 24)] (EInteger 2 (7, 29))])]])]],
     None) /\
  (* What is before an error, and the error. *)
  parse (u "x = 1" ++ nl ++ u "WHILE x" ++ nl ++ u "LOOP") =
    ([StAssignment (v "x") (1, 1) (EInteger 1 (1, 5))], Some (PBad (3, 1) (PShows (u "Unexpected {} in statement") TkLoop))) /\
  program (9, 9) [StLabel (u "x") (1, 1); StReturn (1, 4)] [(TkLabel (u "x"), (1, 1)); (TkReturn, (1, 4)); (TkEol, (2, 1)); (TkEol, (3, 1))] /\
  usual_program [(TkLabel (u "x"), (1, 1)); (TkReturn, (1, 4)); (TkEol, (2, 1)); (TkEol, (3, 1))].
Proof.
  cbv zeta. split; [vm_compute; reflexivity|]. split; [vm_compute; reflexivity|]. split.
  - apply pg_lines. constructor; [constructor|].
    apply (ln_statement (StReturn (1, 4)) [(TkReturn, (1, 4))] (2, 1) []); repeat constructor.
  - constructor.
    + intros a b x p q E. exfalso. assert (I : In (TkNot, q) (a ++ (x, p) :: (TkNot, q) :: b)) by (apply in_or_app; right; right; left; reflexivity).
      rewrite <- E in I. cbn [In] in I. intuition discriminate.
    + intros a b p q E. assert (I : In (TkRightParen, p) (a ++ (TkRightParen, p) :: (TkLeftParen, q) :: b)) by (apply in_or_app; right; left; reflexivity).
      rewrite <- E in I. cbn [In] in I. intuition discriminate.
    + intros a b p q E. exfalso. assert (I : In (TkLeftParen, p) (a ++ (TkLeftParen, p) :: (TkRightParen, q) :: b)) by (apply in_or_app; right; left; reflexivity).
      rewrite <- E in I. cbn [In] in I. intuition discriminate.
    + intros p I. cbn [In] in I. intuition discriminate.
Qed.
