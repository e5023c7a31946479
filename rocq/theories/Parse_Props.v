(** Claim C27: precedence and associativity of expressions. *)
From Coq Require Import String.
From Verif Require Import Base Bytecode_Model Vm_Model Ast_Model Lex_Model Lex_Spec Lex_Proofs Parse_Model
  Parse_Spec Parse_Proofs.
Local Open Scope string_scope.
Local Open Scope nat_scope.
Local Open Scope list_scope.

(** Every writing of a tree, of any size and with any extra parentheses, is parsed as that tree,
    with its positions, whatever ends it. *)
Theorem C27_precedence : forall eof e w h t rest, writes e w h t -> at_end rest ->
  parse_expr eof None (w ++ rest) = Ok (Some e, rest).
Proof. intros eof e w h t rest W A. exact (parse_writing eof e w h t rest W A). Qed.
Print Assumptions C27_precedence.

(** Every tree is written with only the parentheses that the levels require, and parsed back. *)
Theorem C27_round_trip : forall eof pp e rest, written e -> at_end rest ->
  parse_expr eof None (fst (fst (print pp e)) ++ rest) = Ok (Some e, rest).
Proof.
  intros eof pp e rest W A. eapply parse_writing; [|exact A]. apply print_writes. exact W.
Qed.
Print Assumptions C27_round_trip.

(** So no sequence of tokens can be understood in two ways. *)
Theorem C27_one_meaning : forall e e' w h t h' t', writes e w h t -> writes e' w h' t' -> e = e'.
Proof.
  intros e e' w h t h' t' W W'.
  pose proof (parse_writing (1, 1)%N e w h t [] W I) as A.
  pose proof (parse_writing (1, 1)%N e' w h' t' [] W' I) as B.
  rewrite A in B. apply Ok_inj, pair_equal_spec in B. destruct B as [B _].
  exact (f_equal (fun o => match o with Some x => x | None => e end) B).
Qed.
Print Assumptions C27_one_meaning.

(** Everything else is rejected: what the parser accepts, up to the token that ends it, is a writing
    of the tree that it gives, or nothing at all.  Three forms are excepted, and refuted below. *)
Theorem C27_only_writings : forall eof ts r rest, parse_expr eof None ts = Ok (r, rest) ->
  exists w, ts = w ++ rest /\ at_end rest /\
    (usual w -> match r with Some e => exists h t, writes e w h t | None => w = [] end).
Proof. exact parse_converse. Qed.
Print Assumptions C27_only_writings.

(** A value followed by NOT is dropped, a call is made of a parenthesised name, and a pair of empty
    parentheses counts as no argument. *)
Theorem C27_only_writings_refuted :
  exists ts1 e1 ts2 e2 ts3 e3,
    ts1 = map (fun t => (t, (1, 1)%N)) [TkInteger 1; TkNot; TkInteger 2] /\
    parse_expr (1, 1)%N None ts1 = Ok (Some e1, []) /\ (forall h t, ~ writes e1 ts1 h t) /\
    ts2 = map (fun t => (t, (1, 1)%N))
      [TkLeftParen; TkSymbol (mkVarRef (u "x") None); TkRightParen; TkLeftParen; TkInteger 3; TkRightParen] /\
    parse_expr (1, 1)%N None ts2 = Ok (Some e2, []) /\ (forall h t, ~ writes e2 ts2 h t) /\
    ts3 = map (fun t => (t, (1, 1)%N))
      [TkSymbol (mkVarRef (u "x") None); TkLeftParen; TkLeftParen; TkRightParen; TkRightParen] /\
    parse_expr (1, 1)%N None ts3 = Ok (Some e3, []) /\ (forall h t, ~ writes e3 ts3 h t).
Proof.
  set (p := (1, 1)%N). set (x := mkVarRef (u "x") None).
  exists (map (fun t => (t, p)) [TkInteger 1; TkNot; TkInteger 2]), (EUnary UNot (EInteger 2 p) p),
    (map (fun t => (t, p)) [TkLeftParen; TkSymbol x; TkRightParen; TkLeftParen; TkInteger 3; TkRightParen]),
    (ECall x p [(Some (EInteger 3 p), SepEnd, p)]),
    (map (fun t => (t, p)) [TkSymbol x; TkLeftParen; TkLeftParen; TkRightParen; TkRightParen]), (ECall x p []).
  split; [reflexivity|]. split; [reflexivity|]. split.
  { intros h t W. inversion W. }
  split; [reflexivity|]. split; [reflexivity|]. split.
  { intros h t W. remember (ECall x p [(Some (EInteger 3 p), SepEnd, p)]) as e eqn:E.
    remember (map _ _) as w eqn:Ew in W.
    destruct W; try discriminate E; try discriminate Ew. cbn [map] in Ew.
    assert (L : length w = 4).
    { apply (f_equal (@length _)) in Ew. cbn [length] in Ew. rewrite app_length in Ew. cbn [length] in Ew. lia. }
    destruct w as [|a [|b [|c [|d [|? ?]]]]]; try discriminate L. cbn [app] in Ew.
    assert (Ew' : a = (TkSymbol x, p) /\ b = (TkRightParen, p)) by (split; congruence).
    destruct Ew' as [-> ->]. subst e. inversion W. }
  split; [reflexivity|]. split; [reflexivity|].
  intros h t W. inversion W as [| | | | | | | |v vp p' args w WA]; subst.
  inversion WA as [|args' w' WS]; subst. inversion WS.
Qed.
Print Assumptions C27_only_writings_refuted.

(** The parser always ends, its recursion bound does not matter, and its assertion never fails. *)
Theorem C27_parser_terminates : forall eof first ts n, fuel ts <= n ->
  parse_expr eof first ts <> Err PFuel /\ parse_expr eof first ts <> Err PPanic /\
  parse_expr eof first ts =
    match first with
    | Some e => expr_loop eof n [e] [] false ts
    | None => expr_loop eof n [] [] true ts
    end.
Proof.
  intros eof first ts n H. split; [|split].
  - destruct first; apply (proj1 (enough_fuel eof (fuel ts))); unfold fuel; lia.
  - destruct first; apply (proj1 (no_panic eof (fuel ts))).
  - destruct first; symmetry; apply loop_fuel; exact H.
Qed.
Print Assumptions C27_parser_terminates.

(** From the text. *)
Theorem C27_text : forall alnum numeric uc, tables_ok alnum numeric uc ->
  forall text w end_ e h t, tokenised alnum numeric uc text (1, 1)%N w end_ -> writes e w h t ->
  parse_expr end_ None (fst (tokens alnum numeric uc text)) = Ok (Some e, []).
Proof.
  intros alnum numeric uc TO text w end_ e h t T W.
  unfold tokens. rewrite (tokenised_read_all alnum numeric uc TO _ _ _ _ T) by lia.
  cbn [fst]. rewrite <- (app_nil_r w). eapply parse_writing; [exact W|exact I].
Qed.
Print Assumptions C27_text.

Example C27_case :
  let p := (1, 1)%N in
  let i := fun z => EInteger z p in
  let b := fun o l r => EBinary o l r p in
  let f := fun args => ECall (mkVarRef (u "f") None) p args in
  let parse := fun l => parse_expr p None (map (fun t => (t, p)) l) in
  (* 1 - 2 - 3 * - 4 ^ 5 >= NOT 6 AND f(7, 8) *)
  parse [TkInteger 1; TkMinus; TkInteger 2; TkMinus; TkInteger 3; TkMultiply; TkMinus; TkInteger 4;
         TkExponent; TkInteger 5; TkGreaterEqual; TkNot; TkInteger 6; TkAnd;
         TkSymbol (mkVarRef (u "f") None); TkLeftParen; TkInteger 7; TkComma; TkInteger 8; TkRightParen] =
    Ok (Some (b BAnd (b BGreaterEqual
                (b BSubtract (b BSubtract (i 1%Z) (i 2%Z))
                   (b BMultiply (i 3%Z) (EUnary UNegate (b BPower (i 4%Z) (i 5%Z)) p)))
                (EUnary UNot (i 6%Z) p))
              (f [(Some (i 7%Z), SepLong, p); (Some (i 8%Z), SepEnd, p)])), []) /\
  map fst (fst (fst (print p (b BPower (EUnary UNegate (i 1%Z) p) (b BPower (b BAdd (i 2%Z) (i 3%Z)) (i 4%Z)))))) =
    [TkLeftParen; TkMinus; TkInteger 1; TkRightParen; TkExponent; TkLeftParen; TkLeftParen; TkInteger 2;
     TkPlus; TkInteger 3; TkRightParen; TkExponent; TkInteger 4; TkRightParen] /\
  written (f [(Some (i 7%Z), SepLong, p); (Some (b BAdd (i 2%Z) (i 3%Z)), SepEnd, p)]).
Proof.
  cbv zeta. split; [reflexivity|]. split; [reflexivity|].
  constructor.
  - cbn. repeat split; discriminate.
  - intros e s q [H|[H|[]]]; inversion H; subst; repeat constructor.
Qed.
