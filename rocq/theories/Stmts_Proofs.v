(** Proofs about the parser of statements. *)
From Coq Require Import String.
From Verif Require Import Base Bytecode_Model Num_Model Vm_Model Ast_Model Strings_Model Lex_Model Parse_Model
  Parse_Spec Parse_Proofs Stmts_Model Stmts_Spec.
Local Open Scope string_scope.
Local Open Scope nat_scope.
Local Open Scope list_scope.

(** The first token of an expression. *)
Definition operand_start (t : token) : Prop :=
  match t with
  | TkBoolean _ | TkDouble _ | TkInteger _ | TkText _ | TkSymbol _ | TkLeftParen | TkMinus | TkNot => True
  | _ => False
  end.
Lemma writes_start : forall e w h t, writes e w h t ->
  exists tok pos w', w = (tok, pos) :: w' /\ operand_start tok.
Proof.
  fix IH 5. intros e w h t W. destruct W; try (do 3 eexists; split; [reflexivity|exact Logic.I]).
  - destruct (IH _ _ _ _ W1) as (tok & pos & w' & -> & O). do 3 eexists. split; [reflexivity|exact O].
  - do 3 eexists. split; [reflexivity|]. destruct o; exact Logic.I.
Qed.

Lemma subscripts_exprs : forall args es, subscripts args es -> exprs_of args = Ok es.
Proof.
  unfold subscripts. induction args as [|[[o s] p] r IH]; intros [|e es] H; try discriminate H; [reflexivity|].
  cbn [map fst] in H. assert (X : o = Some e) by congruence. subst o.
  cbn [exprs_of]. rewrite (IH es) by congruence. reflexivity.
Qed.

Lemma token_eq : forall t A (a b : A), (if token_dec t t then a else b) = a.
Proof. intros t A a b. destruct (token_dec t t); congruence. Qed.
Lemma token_ne : forall t t' A (a b : A), t <> t' -> (if token_dec t t' then a else b) = b.
Proof. intros t t' A a b H. destruct (token_dec t t'); congruence. Qed.

Ltac norm := repeat match goal with H : _ |- _ => progress change (token * linecol)%type with tokspan in H end;
  try change (token * linecol)%type with tokspan.

Section Eof.
Variable eof : linecol.
Local Notation peek := (peek eof).
Local Notation parse_expr := (parse_expr eof).
Local Notation parse_required_expr := (parse_required_expr eof).
Local Notation parse_comma_separated_exprs := (parse_comma_separated_exprs eof).

Lemma expect_ok : forall t msg p ts, expect eof t msg ((t, p) :: ts) = Ok (p, ts).
Proof. intros. unfold expect. cbn [Parse_Model.peek fst snd consume tl]. apply token_eq. Qed.
Lemma expect_at_ok : forall t q msg p ts, expect_at eof t q msg ((t, p) :: ts) = Ok (tt, ts).
Proof. intros. unfold expect_at. cbn [Parse_Model.peek fst snd consume tl]. apply token_eq. Qed.

Lemma peek_at_end : forall rest, ends (fst (peek rest)) -> at_end rest.
Proof. intros [|[t p] r] H; [exact Logic.I|exact H]. Qed.
Lemma stops_ends : forall rest, stops (peek rest) -> at_end rest.
Proof.
  intros rest H. apply peek_at_end. unfold stops in H. unfold ends. cbn [In] in *. tauto.
Qed.

Lemma parse_written : forall e w rest, writing e w -> at_end rest -> parse_expr None (w ++ rest) = Ok (Some e, rest).
Proof. intros e w rest (h & t & W) A. eapply parse_writing; eassumption. Qed.
Lemma parse_nothing : forall rest, at_end rest -> parse_expr None rest = Ok (None, rest).
Proof.
  intros rest A. unfold Parse_Model.parse_expr, fuel.
  replace (2 * length rest + 2) with (S (2 * length rest + 1)) by lia.
  destruct rest as [|[t p] r]; [reflexivity|]. cbn [at_end] in A. unfold ends in A. cbn [In] in A.
  cbn [expr_loop Parse_Model.peek]. repeat (destruct A as [<-|A]; [reflexivity|]). destruct A.
Qed.
Lemma parse_maybe : forall o w rest, maybe o w -> at_end rest -> parse_expr None (w ++ rest) = Ok (o, rest).
Proof.
  intros [e|] w rest M A; [apply parse_written; assumption|]. cbn [maybe] in M. subst w. apply parse_nothing. exact A.
Qed.
Lemma required : forall e w rest msg, writing e w -> at_end rest -> parse_required_expr msg (w ++ rest) = Ok (e, rest).
Proof.
  intros e w rest msg W A. unfold Parse_Model.parse_required_expr. rewrite (parse_written e w rest W A). reflexivity.
Qed.
Lemma peek_writing : forall e w rest, writing e w -> operand_start (fst (peek (w ++ rest))).
Proof. intros e w rest (h & t & W). destruct (writes_start e w h t W) as (tok & pos & w' & -> & O). exact O. Qed.
Lemma writing_nonempty : forall e w, writing e w -> 0 < length w.
Proof. intros e w (h & t & W). destruct (writes_start e w h t W) as (tok & pos & w' & -> & O). cbn. lia. Qed.

(** A writing that begins with a parenthesis, when its first operand has already been read. *)
Lemma writes_first : forall e w h t, writes e w h t -> forall p w', w = (TkLeftParen, p) :: w' ->
  exists e1 we h1 t1 q wr, w' = we ++ (TkRightParen, q) :: wr /\ writes e1 we h1 t1 /\
    forall es ops rest, looser h ops -> exists pend es',
      steps eof (e1 :: es, ops, false, wr ++ rest) (es', pend ++ ops, false, rest) /\
      folds pend es' (e :: es) /\ tight t pend.
Proof.
  fix IH 5. intros e w h t W p w' E. destruct W; try discriminate E.
  - injection E as -> <-. exists e, w, h, t, q, []. split; [reflexivity|]. split; [exact W|].
    intros es ops rest L. exists [], (e :: es). split; [apply steps_refl|]. split; [reflexivity|constructor].
  - destruct wl as [|[tk tp] wl]; [destruct (writes_start _ _ _ _ W1) as (? & ? & ? & X & _); discriminate X|].
    cbn [app] in E. injection E as -> -> <-.
    destruct (IH _ _ _ _ W1 p wl eq_refl) as (e1 & we & h1 & t1 & q & wr' & -> & Wf & K).
    exists e1, we, h1, t1, q, (wr' ++ (binop_token o, p0) :: wr).
    split; [rewrite <- app_assoc; reflexivity|]. split; [exact Wf|].
    intros es ops rest L.
    destruct (K es ops ((binop_token o, p0) :: wr ++ rest)) as (pl & esl & S1 & F1 & T1).
    { eapply looser_le; [exact L|]. lia. }
    destruct (proj1 (writes_run eof) _ _ _ _ W2 (l :: es) ((OpBinary o, p0) :: ops) rest) as (pr & esr & S2 & F2 & T2).
    { right. cbn [fst]. rewrite level_priority. assumption. }
    exists (pr ++ [(OpBinary o, p0)]), esr. split; [|split].
    + rewrite <- !app_assoc. cbn [app]. eapply steps_trans; [exact S1|].
      eapply steps_trans; [apply binary_step; [exact F1|eapply tight_le; [exact T1|assumption]|]|exact S2].
      eapply looser_le; [exact L|]. lia.
    + apply folds_app. exists (r :: l :: es). split; [exact F2|]. cbn [folds]. split; [reflexivity|].
      eexists. split; reflexivity.
    + apply Forall_app. split; [eapply tight_le; [exact T2|lia]|]. constructor; [|constructor].
      cbn [fst]. rewrite level_priority. lia.
  - destruct o; discriminate E.
Qed.
Lemma writing_first : forall e p w', writing e ((TkLeftParen, p) :: w') ->
  exists e1 we q wr, w' = we ++ (TkRightParen, q) :: wr /\ writing e1 we /\
    forall rest, at_end rest -> parse_expr (Some e1) (wr ++ rest) = Ok (Some e, rest).
Proof.
  intros e p w' (h & t & W). destruct (writes_first _ _ _ _ W p w' eq_refl) as (e1 & we & h1 & t1 & q & wr & -> & W1 & K).
  exists e1, we, q, wr. split; [reflexivity|]. split; [exists h1, t1; exact W1|].
  intros rest A. destruct (K [] [] rest Logic.I) as (pend & es' & S1 & F & _).
  rewrite app_nil_r in S1. destruct (S1 1 _ (end_run eof _ _ _ _ rest F A)) as [m E].
  unfold Parse_Model.parse_expr. eapply loop_any_fuel. exact E.
Qed.

(** * Simple statements *)

Lemma data_parses : forall l w, data_list l w -> forall rest, stops (peek rest) -> forall n acc,
  length (w ++ rest) < n -> data_values eof n acc (w ++ rest) = Ok (acc ++ l, rest).
Proof.
  intros l w D. induction D as [d w D|d w p l wl D DL IH]; intros rest ST n acc LN.
  - destruct n as [|n]; [lia|].
    assert (AFT : forall e ts, e = e -> stops (peek ts) -> (let '(tok, pos) := peek ts in
        match tok with
        | TkEof | TkEol | TkElse => Ok (acc ++ [Some e], ts)
        | TkComma => data_values eof n (acc ++ [Some e]) (consume ts)
        | _ => bad_token pos "Expected comma after datum but found {}" tok
        end) = Ok (acc ++ [Some e], ts)).
    { intros e ts _ S1. destruct (peek ts) as [tok pos]. unfold stops in S1. cbn [fst In] in S1.
      destruct S1 as [<-|[<-|[<-|[]]]]; reflexivity. }
    destruct D; cbn [app data_values Parse_Model.peek fst snd consume tl]; try (apply AFT; [reflexivity|exact ST]).
    unfold stops in ST. destruct (peek rest) as [tok pos]. cbn [fst In] in ST.
    destruct ST as [<-|[<-|[<-|[]]]]; reflexivity.
  - rewrite app_length in LN. cbn [length] in LN. rewrite app_length in LN. cbn [length] in LN.
    rewrite <- app_assoc. cbn [app].
    destruct n as [|n]; [lia|].
    assert (X : forall acc', acc' = acc ++ [d] -> data_values eof n acc' (wl ++ rest) = Ok (acc ++ d :: l, rest)).
    { intros acc' ->. rewrite IH; [rewrite <- app_assoc; reflexivity|exact ST|rewrite app_length; lia]. }
    destruct D; cbn [app data_values Parse_Model.peek fst snd consume tl]; apply X; reflexivity.
Qed.

(** The arguments of a command after [acc]. *)
Definition all_args (acc args : list argspan) : list argspan :=
  match acc, args with [], [(None, SepEnd, _)] => [] | _, _ => acc ++ args end.
Lemma command_parses : forall args w stop, command_args args w stop ->
  forall rest, stops (peek rest) -> snd (peek rest) = stop -> forall n acc,
  length (w ++ rest) < n -> builtin_args eof n None acc (w ++ rest) = Ok (all_args acc args, rest).
Proof.
  intros args w stop C. induction C as [o w stop M|o w sep t p args wa stop M SP C IH];
    intros rest ST SE n acc LN; (destruct n as [|n]; [lia|]); cbn [builtin_args].
  - rewrite (parse_maybe o w rest M (stops_ends rest ST)). cbn [and_then].
    unfold stops in ST. destruct (peek rest) as [tok pos]. cbn [fst snd In] in *. subst pos.
    destruct ST as [<-|[<-|[<-|[]]]]; destruct o, acc; reflexivity.
  - rewrite app_length in LN. cbn [length] in LN. rewrite app_length in LN. cbn [length] in LN.
    rewrite <- app_assoc. cbn [app].
    assert (A : at_end ((t, p) :: wa ++ rest)) by (destruct SP; cbn; tauto).
    rewrite (parse_maybe o w _ M) by exact A. cbn [and_then Parse_Model.peek consume tl].
    assert (X : builtin_args eof n None (acc ++ [(o, sep, p)]) (wa ++ rest) = Ok (all_args acc ((o, sep, p) :: args), rest)).
    { rewrite IH; [|exact ST|exact SE|rewrite app_length; lia].
      assert (NE : args <> []) by (destruct C; discriminate).
      f_equal. f_equal. unfold all_args. rewrite <- app_assoc. destruct acc as [|a acc]; cbn [app].
      - destruct SP, o; reflexivity.
      - reflexivity. }
    destruct SP; exact X.
Qed.

Lemma command_first : forall args w stop, command_args args w stop -> forall p w', w = (TkLeftParen, p) :: w' ->
  ~ assigns_element w ->
  exists e1 we q wr, w' = we ++ (TkRightParen, q) :: wr /\ writing e1 we /\
    forall rest, stops (peek rest) -> snd (peek rest) = stop ->
      fst (peek (wr ++ rest)) <> TkEqual /\
      forall n, length (wr ++ rest) < n -> builtin_args eof n (Some e1) [] (wr ++ rest) = Ok (args, rest).
Proof.
  intros args w stop C p w' E NA.
  destruct C as [o w stop M|o w sep t q args wa stop M SP C].
  - destruct o as [e|]; cbn [maybe] in M; [|subst w; discriminate E]. subst w.
    destruct (writing_first e p w' M) as (e1 & we & q & wr & -> & W1 & K).
    exists e1, we, q, wr. split; [reflexivity|]. split; [exact W1|]. intros rest ST SE. split.
    + intros X. destruct wr as [|[tk tp] wr].
      * cbn [app] in X. unfold stops in ST. rewrite X in ST. cbn [In] in ST. intuition congruence.
      * cbn in X. subst tk. apply NA. exists p, e1, we, q, tp, wr. auto.
    + intros n LN. destruct n as [|n]; [lia|]. cbn [builtin_args]. rewrite (K rest (stops_ends rest ST)). cbn [and_then].
      unfold stops in ST. destruct (peek rest) as [tok pos]. cbn [fst snd In] in *. subst pos.
      destruct ST as [<-|[<-|[<-|[]]]]; reflexivity.
  - destruct o as [e|]; cbn [maybe] in M.
    2:{ subst w. cbn [app] in E. destruct SP; discriminate E. }
    destruct w as [|[tk tp] w0]; [apply writing_nonempty in M; cbn in M; lia|].
    cbn [app] in E. injection E as -> -> <-.
    destruct (writing_first e p w0 M) as (e1 & we & q' & wr & -> & W1 & K).
    exists e1, we, q', (wr ++ (t, q) :: wa). rewrite <- app_assoc. split; [reflexivity|]. split; [exact W1|].
    intros rest ST SE. rewrite <- app_assoc. cbn [app]. split.
    + intros X. destruct wr as [|[tk tp] wr].
      * cbn in X. destruct SP; discriminate X.
      * cbn in X. subst tk. apply NA. exists p, e1, we, q', tp, (wr ++ (t, q) :: wa).
        cbn [app]. rewrite <- app_assoc. cbn [app]. auto.
    + intros n LN. rewrite app_length in LN. cbn [length] in LN.
      destruct n as [|n]; [lia|]. cbn [builtin_args].
      assert (A : at_end ((t, q) :: wa ++ rest)) by (destruct SP; cbn; tauto).
      rewrite K by exact A. cbn [and_then Parse_Model.peek consume tl].
      assert (X : builtin_args eof n None ([] ++ [(Some e, sep, q)]) (wa ++ rest) = Ok ((Some e, sep, q) :: args, rest)).
      { rewrite (command_parses args wa stop C rest ST SE n); [|norm; lia]. reflexivity. }
      destruct SP; exact X.
Qed.

Lemma label_cases : forall t name, names_label t name ->
  (exists z, t = TkInteger z /\ name = to_string z) \/ t = TkLabel name.
Proof. intros t name H. destruct H; [left; eexists; split; reflexivity|right; reflexivity]. Qed.

(** The first tokens of statements other than labels. *)
Definition starts (t : token) : Prop :=
  match t with
  | TkData | TkDeclare | TkDim | TkDo | TkEnd | TkExit | TkIf | TkFor | TkFunction | TkGosub | TkGoto | TkOn
  | TkReturn | TkSelect | TkSub | TkSymbol _ | TkWhile => True
  | _ => False
  end.

Lemma array_or_call : forall v p ts, fst (peek ts) <> TkLeftParen ->
  parse_array_or_builtin_call eof v p ts = parse_builtin_call eof v p None ts.
Proof.
  intros v p ts H. unfold parse_array_or_builtin_call. destruct (peek ts) as [tok pos]. cbn [fst] in H.
  destruct tok; reflexivity || congruence.
Qed.
Lemma symbol_other : forall v p ts, fst (peek ts) <> TkEqual ->
  parse_symbol eof v p ts = parse_array_or_builtin_call eof v p ts.
Proof.
  intros v p ts H. unfold parse_symbol. destruct (fst (peek ts)); reflexivity || congruence.
Qed.
Lemma array_call_first : forall v p q ts e r ts', parse_comma_separated_exprs ts = Ok ([(Some e, SepEnd, r)], ts') ->
  fst (peek ts') <> TkEqual ->
  parse_array_or_builtin_call eof v p ((TkLeftParen, q) :: ts) = parse_builtin_call eof v p (Some e) ts'.
Proof.
  intros v p q ts e r ts' E H. unfold parse_array_or_builtin_call. cbn [Parse_Model.peek consume tl].
  rewrite E. cbn [and_then exprs_of]. destruct (fst (peek ts')); reflexivity || congruence.
Qed.

Lemma simple_parses : forall st w stop, simple st w stop -> forall rest, peek rest = stop -> stops stop ->
  exists tok pos w', w = (tok, pos) :: w' /\ starts tok /\
    parse_uniline eof (w ++ rest) = Ok (Some st, rest) /\
    forall one, parse_keyword eof one tok pos (w' ++ rest) = Ok (st, rest).
Proof.
  intros st w stop S0 rest PK ST.
  assert (AE : at_end rest) by (apply stops_ends; rewrite PK; exact ST).
  assert (FIN : forall tok pos (w' : list tokspan) (r : pres (stmt * toks)), starts tok ->
    (parse_uniline eof (((tok, pos) :: w') ++ rest) = (get st, ts <- r; Ok (Some st, ts))) ->
    (forall one, parse_keyword eof one tok pos (w' ++ rest) = r) -> r = Ok (st, rest) ->
    exists tok' pos' w'', (tok, pos) :: w' = (tok', pos') :: w'' /\ starts tok' /\
      parse_uniline eof (((tok, pos) :: w') ++ rest) = Ok (Some st, rest) /\
      forall one, parse_keyword eof one tok' pos' (w'' ++ rest) = Ok (st, rest)).
  { intros tok pos w' r SS A B ->. exists tok, pos, w'. split; [reflexivity|]. split; [exact SS|].
    split; [exact A|exact B]. }
  assert (ENDS : ends_stmt (fst (peek rest)) = true).
  { rewrite PK. unfold stops in ST. cbn [In] in ST. destruct stop as [tk tp]. cbn [fst] in *.
    destruct ST as [<-|[<-|[<-|[]]]]; reflexivity. }
  assert (SR : stops (peek rest)) by (rewrite PK; exact ST).
  destruct S0.
  - (* DATA *)
    eapply FIN; [exact Logic.I|reflexivity|reflexivity|cbn [app consume tl]; norm]. unfold parse_data.
    rewrite (data_parses l w H rest SR) by (norm; lia). reflexivity.
  - (* END *)
    eapply FIN; [exact Logic.I|reflexivity|reflexivity|cbn [app consume tl]; norm].
    unfold parse_end, maybe_parse_end.
    assert (N : match fst (peek (w ++ rest)) with
      | TkFunction | TkIf | TkSelect | TkSub => False | _ => True end).
    { destruct o as [e|]; cbn [maybe] in H.
      - pose proof (peek_writing e w rest H) as O. destruct (fst (peek (w ++ rest))); exact O || exact Logic.I.
      - subst w. cbn [app]. unfold stops in SR. cbn [In] in SR.
        destruct SR as [<-|[<-|[<-|[]]]]; exact Logic.I. }
    destruct (fst (peek (w ++ rest))); try destruct N; rewrite (parse_maybe o w _ H) by exact AE; reflexivity.
  - eapply FIN; [exact Logic.I|reflexivity|reflexivity|reflexivity].
  - eapply FIN; [exact Logic.I|reflexivity|reflexivity|reflexivity].
  - eapply FIN; [exact Logic.I|reflexivity|reflexivity|reflexivity].
  - eapply FIN; [exact Logic.I|reflexivity|reflexivity|reflexivity].
  - eapply FIN; [exact Logic.I|reflexivity|reflexivity|cbn [app consume tl]; norm]. destruct H; reflexivity.
  - eapply FIN; [exact Logic.I|reflexivity|reflexivity|cbn [app consume tl]; norm]. destruct H; reflexivity.
  - eapply FIN; [exact Logic.I|reflexivity|reflexivity|cbn [app consume tl]; norm].
    unfold parse_on. cbn [app]. rewrite expect_ok. cbn [and_then Parse_Model.peek consume tl].
    destruct H; [|reflexivity]. destruct z; [congruence|reflexivity|reflexivity].
  - eapply FIN; [exact Logic.I|reflexivity|reflexivity|cbn [app consume tl]; norm].
    unfold parse_on. cbn [app]. rewrite expect_ok. reflexivity.
  - eapply FIN; [exact Logic.I|reflexivity|reflexivity|cbn [app consume tl]; norm].
    unfold parse_on. cbn [app]. rewrite expect_ok. cbn [and_then Parse_Model.peek consume tl].
    rewrite expect_ok. reflexivity.
  - (* RETURN *)
    exists TkReturn, p, []. split; [reflexivity|]. split; [exact Logic.I|]. split; reflexivity.
  - (* assignment *)
    eapply FIN; [exact Logic.I|reflexivity|reflexivity|cbn [app consume tl]; norm].
    unfold parse_symbol. cbn [app Parse_Model.peek fst consume tl]. unfold parse_assignment.
    rewrite (required e w rest _ H AE). cbn [and_then]. rewrite ENDS. reflexivity.
  - (* element *)
    eapply FIN; [exact Logic.I|reflexivity|reflexivity|cbn [app consume tl]; norm].
    unfold parse_symbol. cbn [app Parse_Model.peek fst consume tl].
    unfold parse_array_or_builtin_call. cbn [Parse_Model.peek fst consume tl].
    rewrite <- app_assoc. cbn [app]. rewrite (parse_args_writing eof args wa _ H). cbn [and_then].
    rewrite (subscripts_exprs args es H0). cbn [Parse_Model.peek fst consume tl].
    unfold parse_array_assignment. rewrite (required e w rest _ H1 AE). cbn [and_then]. rewrite ENDS. reflexivity.
  - (* command without arguments *)
    eapply FIN; [exact Logic.I|reflexivity|reflexivity|cbn [app consume tl]; norm].
    rewrite symbol_other, array_or_call.
    + unfold parse_builtin_call. cbn [unannotated vr_type vr_name and_then].
      change rest with ([] ++ rest) at 2.
      rewrite (command_parses [(None, SepEnd, snd stop)] [] (snd stop) (ca_last None [] (snd stop) eq_refl) rest SR)
        by (first [rewrite PK; reflexivity|cbn [app]; norm; lia]). reflexivity.
    + unfold stops in SR. cbn [In] in SR. intuition congruence.
    + unfold stops in SR. cbn [In] in SR. intuition congruence.
  - (* command with arguments *)
    eapply FIN; [exact Logic.I|reflexivity|reflexivity|cbn [app consume tl]; norm].
    assert (SE : snd (peek rest) = snd stop) by (rewrite PK; reflexivity).
    assert (NQ : fst (peek (w ++ rest)) <> TkEqual).
    { intros PW. destruct H as [o w stop' M|o w sep t q args wa stop' M SP C].
      - destruct o as [e|]; cbn [maybe] in M.
        + pose proof (peek_writing e w rest M) as O. rewrite PW in O. exact O.
        + subst w. cbn [app] in PW. unfold stops in SR. rewrite PW in SR. cbn [In] in SR. intuition discriminate.
      - rewrite <- app_assoc in PW. destruct o as [e|]; cbn [maybe] in M.
        + pose proof (peek_writing e w (((t, q) :: wa) ++ rest) M) as O. norm. rewrite PW in O. exact O.
        + subst w. cbn in PW. destruct SP; discriminate PW. }
    rewrite symbol_other by exact NQ.
    destruct (token_dec (fst (peek (w ++ rest))) TkLeftParen) as [PL|NL].
    + (* a parenthesis *)
      assert (E : exists tp w', w = (TkLeftParen, tp) :: w').
      { destruct w as [|[a b] w'].
        - cbn [app] in PL. unfold stops in SR. rewrite PL in SR. cbn [In] in SR. intuition discriminate.
        - cbn in PL. subst a. do 2 eexists. reflexivity. }
      destruct E as (tp & w' & E).
      destruct (command_first args w (snd stop) H tp w' E H1) as (e1 & we & q & wr & -> & (h1 & t1 & W1) & K).
      destruct (K rest SR SE) as [NE K2].
      pose proof (parse_args_writing eof [(Some e1, SepEnd, q)] (we ++ [(TkRightParen, q)]) (wr ++ rest)
        (wa_some _ _ (ws_last e1 we h1 t1 q W1))) as PA.
      subst w. cbn [app]. rewrite <- app_assoc in *. cbn [app] in *. norm.
      rewrite (array_call_first _ _ tp _ e1 q (wr ++ rest) PA NE).
      unfold parse_builtin_call. cbn [unannotated vr_type vr_name and_then].
      rewrite K2 by (norm; lia). reflexivity.
    + rewrite array_or_call by exact NL.
      unfold parse_builtin_call. cbn [unannotated vr_type vr_name and_then].
      rewrite (command_parses args w (snd stop) H rest SR SE) by (norm; lia). cbn [and_then].
      assert (A : all_args [] args = args).
      { unfold all_args. destruct H as [[e|] w stop' M|]; [reflexivity|congruence|destruct o; destruct H2; reflexivity]. }
      rewrite A. reflexivity.
Qed.

(** * The parts of other statements *)

Definition line_end (s : tokspan) : Prop := fst s = TkEol \/ fst s = TkEof.
Lemma line_end_stops : forall s, line_end s -> stops s.
Proof. intros s [H|H]; unfold stops; rewrite H; cbn [In]; tauto. Qed.
Lemma line_end_ends : forall rest, line_end (peek rest) -> ends_line (fst (peek rest)) = true.
Proof. intros rest [H|H]; rewrite H; reflexivity. Qed.
Lemma line_end_at_end : forall rest, line_end (peek rest) -> at_end rest.
Proof. intros rest H. apply stops_ends, line_end_stops, H. Qed.

Lemma dim_as_parses : forall t w rest, dim_type t w -> line_end (peek rest) ->
  parse_dim_as eof (w ++ rest) = Ok (t, rest).
Proof.
  intros t w rest D L. pose proof (line_end_ends rest L) as E. destruct D as [|tk e p q N].
  - unfold parse_dim_as. cbn [app]. destruct (peek rest) as [tok pos] eqn:P. cbn [fst snd] in *.
    assert (X : (get t, ts <- Ok (TInteger, rest);
      if ends_line (fst (peek ts)) then Ok (t, ts)
      else bad_token (snd (peek ts)) "Unexpected {} in DIM statement" (fst (peek ts))) = Ok (TInteger, rest)).
    { cbn [and_then]. rewrite P. cbn [fst]. rewrite E. reflexivity. }
    destruct L as [L|L]; cbn [fst] in L; subst tok; exact X.
  - unfold parse_dim_as. cbn [app Parse_Model.peek consume tl].
    destruct N; cbn [parse_as_type Parse_Model.peek consume tl and_then]; rewrite E; reflexivity.
Qed.

Lemma params_parse : forall l w, param_list l w -> forall rest n acc, length (w ++ rest) < n ->
  callable_params eof n acc (w ++ rest) = Ok (acc ++ l, rest).
Proof.
  intros l w D. induction D as [v w q P|v w q l wl P D IH]; intros rest n acc LN; (destruct n as [|n]; [lia|]).
  - rewrite <- app_assoc. cbn [app].
    destruct P as [v p|name p r t e s N]; cbn [app callable_params Parse_Model.peek fst consume tl and_then]; [reflexivity|].
    destruct N; reflexivity.
  - rewrite <- app_assoc. cbn [app]. rewrite app_length in LN. cbn [length] in LN. rewrite app_length in LN. cbn [length] in LN.
    destruct P as [v p|name p r t e s N]; cbn [app callable_params Parse_Model.peek fst consume tl and_then].
    + rewrite IH by (rewrite app_length; norm; lia). rewrite <- app_assoc. reflexivity.
    + cbn [length] in LN.
      assert (X : callable_params eof n (acc ++ [mkVarRef name (Some e)]) (wl ++ rest) =
        Ok (acc ++ mkVarRef name (Some e) :: l, rest)).
      { rewrite IH by (rewrite app_length; norm; lia). rewrite <- app_assoc. reflexivity. }
      destruct N; exact X.
Qed.
Lemma callable_args_parse : forall l w rest, params l w -> fst (peek rest) <> TkLeftParen ->
  parse_callable_args eof (w ++ rest) = Ok (l, rest).
Proof.
  intros l w rest P N. unfold parse_callable_args. destruct P as [|p l w P].
  - cbn [app]. destruct (fst (peek rest)); try reflexivity. congruence.
  - cbn [app Parse_Model.peek fst consume tl length].
    exact (params_parse l w P rest _ [] (Nat.lt_lt_succ_r _ _ (Nat.lt_succ_diag_r _))).
Qed.
Lemma signature_parses : forall t name np l w rest decl, signature t name np l w ->
  fst (peek rest) = TkEol \/ decl = true /\ fst (peek rest) = TkEof ->
  parse_callable_signature eof decl (match t with TkFunction => true | _ => false end) (w ++ rest) =
    Ok ((name, np, l), rest) /\ (t = TkFunction \/ t = TkSub).
Proof.
  intros t name np l w rest decl SG L. split; [|destruct SG; tauto].
  assert (NL : fst (peek rest) <> TkLeftParen) by (destruct L as [L|[_ L]]; rewrite L; discriminate).
  assert (X : match fst (peek rest) with TkEol => true | TkEof => decl | _ => false end = true).
  { destruct L as [L|[D L]]; rewrite L; [reflexivity|exact D]. }
  destruct SG as [v p l w P|name p l w P].
  - unfold parse_callable_signature. cbn [app Parse_Model.peek consume tl].
    destruct v as [vn [vt|]]; cbn [vr_type vr_name and_then];
      rewrite (callable_args_parse l w rest P NL); cbn [and_then]; rewrite X; reflexivity.
  - unfold parse_callable_signature. cbn [app Parse_Model.peek consume tl].
    cbn [vr_type vr_name and_then].
    rewrite (callable_args_parse l w rest P NL); cbn [and_then]; rewrite X; reflexivity.
Qed.

Definition swap (g : option (bool * expr)) : option (expr * bool) :=
  match g with Some (b, e) => Some (e, b) | None => None end.
Lemma guard_parses : forall g w rest part, guard g w -> line_end (peek rest) ->
  parse_do_guard eof part (w ++ rest) = Ok (swap g, rest).
Proof.
  intros g w rest part G L. pose proof (line_end_at_end rest L) as A.
  destruct G as [|p e w W|p e w W]; unfold parse_do_guard.
  - cbn [app]. destruct (peek rest) as [tok pos]. destruct L as [L|L]; cbn [fst] in L; subst tok; reflexivity.
  - cbn [app Parse_Model.peek consume tl]. rewrite (required e w _ _ W) by exact A. reflexivity.
  - cbn [app Parse_Model.peek consume tl]. rewrite (required e w _ _ W) by exact A. reflexivity.
Qed.

Lemma step_parses : forall for_pos e up dbl w rest, step for_pos e up dbl w -> fst (peek rest) = TkEol ->
  exists sign, parse_step eof for_pos (w ++ rest) = Ok ((e, sign, dbl), rest) /\ sign = if up then Gt else Lt.
Proof.
  intros for_pos e up dbl w rest SP L.
  assert (C : forall z, z <> 0%Z -> (z ?= 0)%Z = if (0 <? z)%Z then Gt else Lt).
  { intros z NZ. destruct (0 <? z)%Z eqn:E.
    - apply Z.ltb_lt in E. apply Z.compare_gt_iff. exact E.
    - apply Z.ltb_ge in E. apply Z.compare_lt_iff. clear -NZ E. lia. }
  destruct SP as [|z p q NZ|d p q NZ|z p m q NZ|d p m q NZ]; unfold parse_step;
    cbn [app Parse_Model.peek fst consume tl].
  - destruct (fst (peek rest)); try discriminate L. eexists. split; reflexivity.
  - eexists. split; [reflexivity|]. apply C. exact NZ.
  - rewrite NZ. eexists. split; reflexivity.
  - eexists. split; [reflexivity|]. apply C. exact NZ.
  - rewrite NZ. eexists. split; reflexivity.
Qed.

Lemma test_first : forall g w rest, case_test g w -> operand_start (fst (peek (w ++ rest))) \/ fst (peek (w ++ rest)) = TkIs.
Proof.
  intros g w rest C. destruct C as [e w W|p o t q e w R W|e1 w1 p e2 w2 W1 W2].
  - left. eapply peek_writing. exact W.
  - right. reflexivity.
  - left. rewrite <- app_assoc. eapply peek_writing. exact W1.
Qed.
Lemma test_nonempty : forall g w, case_test g w -> 0 < length w.
Proof.
  intros g w C. destruct C as [e w W|p o t q e w R W|e1 w1 p e2 w2 W1 W2]; [eapply writing_nonempty; exact W|cbn; lia|].
  rewrite app_length. apply writing_nonempty in W1. lia.
Qed.
Lemma guards_parse : forall l w, case_tests l w -> forall rest, fst (peek rest) = TkEol -> forall n acc,
  length (w ++ rest) < n -> case_guards eof n acc (w ++ rest) = Ok (acc ++ l, rest).
Proof.
  assert (ONE : forall g w, case_test g w -> forall rest, fst (peek rest) = TkEol \/ fst (peek rest) = TkComma ->
    forall n acc, case_guards eof (S n) acc (w ++ rest) = case_next eof (case_guards eof n) (acc ++ [g]) rest).
  { intros g w C rest L n acc.
    assert (A : at_end rest) by (apply peek_at_end; unfold ends; cbn [In]; destruct L as [L|L]; rewrite L; tauto).
    assert (V : case_value eof (w ++ rest) = Ok (g, rest) -> operand_start (fst (peek (w ++ rest))) ->
      case_guards eof (S n) acc (w ++ rest) = case_next eof (case_guards eof n) (acc ++ [g]) rest).
    { intros X O. cbn [case_guards]. rewrite X. cbn [and_then]. destruct (fst (peek (w ++ rest))); destruct O; reflexivity. }
    destruct C as [e w W|p o t q e w R W|e1 w1 p e2 w2 W1 W2].
    - apply V; [|apply (peek_writing e); exact W]. unfold case_value. rewrite (required e w _ _ W) by exact A. cbn [and_then].
      destruct L as [L|L]; rewrite L; reflexivity.
    - cbn [app case_guards Parse_Model.peek fst consume tl]. unfold case_is. cbn [Parse_Model.peek fst consume tl].
      destruct R; cbn [relop_of]; rewrite (required e w _ _ W) by exact A; reflexivity.
    - apply V.
      + rewrite <- app_assoc. unfold case_value. cbn [app].
        rewrite (required e1 w1 _ _ W1) by (cbn; tauto). cbn [and_then Parse_Model.peek fst consume tl].
        rewrite (required e2 w2 _ _ W2) by exact A. reflexivity.
      + rewrite <- app_assoc. apply (peek_writing e1). exact W1. }
  intros l w D. induction D as [g w C|g w p l wl C D IH]; intros rest L n acc LN; (destruct n as [|n]; [lia|]).
  - rewrite (ONE g w C rest) by (left; exact L). unfold case_next. rewrite L. reflexivity.
  - rewrite <- app_assoc. cbn [app]. rewrite (ONE g w C) by (right; reflexivity). unfold case_next. cbn [Parse_Model.peek fst consume tl].
    pose proof (test_nonempty g w C) as NE.
    rewrite app_length in LN. cbn [length] in LN. rewrite app_length in LN. cbn [length] in LN.
    rewrite IH; [rewrite <- app_assoc; reflexivity|exact L|rewrite app_length; norm; lia].
Qed.

(** * Loops over lines *)

Definition end_form (st : stmt) (pos : linecol) (w' : list tokspan) : Prop :=
  exists o, st = StEnd o pos /\ maybe o w'.
Lemma statement_start : forall st w stop, statement st w stop ->
  exists tok pos w', w = (tok, pos) :: w' /\ starts tok /\ (tok = TkEnd -> end_form st pos w') /\
    (tok = TkFunction \/ tok = TkSub -> is_callable st).
Proof.
  intros st w stop H.
  assert (F : forall tok pos (w' : list tokspan), starts tok -> tok <> TkEnd -> tok <> TkFunction -> tok <> TkSub ->
    exists tok' pos' w'', (tok, pos) :: w' = (tok', pos') :: w'' /\ starts tok' /\ (tok' = TkEnd -> end_form st pos' w'') /\
    (tok' = TkFunction \/ tok' = TkSub -> is_callable st)).
  { intros tok pos w' SS N1 N2 N3. exists tok, pos, w'. split; [reflexivity|]. split; [exact SS|].
    split; [congruence|]. intros [X|X]; congruence. }
  destruct H.
  - destruct H; try (apply F; [exact Logic.I|discriminate|discriminate|discriminate]).
    exists TkEnd, p, w. split; [reflexivity|]. split; [exact Logic.I|]. split; [intros _; exists o; auto|].
    intros [X|X]; discriminate X.
  - apply F; [exact Logic.I|discriminate|discriminate|discriminate].
  - apply F; [exact Logic.I|discriminate|discriminate|discriminate].
  - apply F; [exact Logic.I|discriminate|discriminate|discriminate].
  - apply F; [exact Logic.I|discriminate|discriminate|discriminate].
  - apply F; [exact Logic.I|discriminate|discriminate|discriminate].
  - apply F; [exact Logic.I|discriminate|discriminate|discriminate].
  - apply F; [exact Logic.I|discriminate|discriminate|discriminate].
  - apply F; [exact Logic.I|discriminate|discriminate|discriminate].
  - apply F; [exact Logic.I|discriminate|discriminate|discriminate].
  - apply F; [exact Logic.I|discriminate|discriminate|discriminate].
  - exists t, p. eexists. split; [reflexivity|]. destruct H; (split; [exact Logic.I|]); (split; [discriminate|]);
      intros _; exact Logic.I.
Qed.

Record loops {R} (one : toks -> pres (option stmt * toks)) (F : nat -> list stmt -> toks -> pres R)
    (fine : stmt -> Prop) : Prop := {
  lo_eol : forall n acc p ts, F (S n) acc ((TkEol, p) :: ts) = F n acc ts;
  lo_label : forall n acc t name p ts, names_label t name -> one ((t, p) :: ts) = Ok (Some (StLabel name p), ts) ->
    F (S n) acc ((t, p) :: ts) = F n (acc ++ [StLabel name p]) ts;
  lo_stmt : forall n acc st w p wl, statement st w (TkEol, p) -> fine st ->
    one (w ++ (TkEol, p) :: wl) = Ok (Some st, wl) -> length (w ++ (TkEol, p) :: wl) < n ->
    exists k, length wl < k /\ F n acc (w ++ (TkEol, p) :: wl) = F k (acc ++ [st]) wl
}.

Lemma loops_until : forall one delim, In delim [TkLoop; TkNext; TkWend] ->
  loops one (fun n acc ts => until eof one n delim acc ts) (fun _ => True).
Proof.
  intros one delim D. constructor.
  - intros n acc p ts. cbn [until Parse_Model.peek fst consume tl].
    rewrite token_ne; [reflexivity|]. cbn [In] in D. intros <-. intuition discriminate.
  - intros n acc t name p ts N E. cbn [until Parse_Model.peek fst consume tl].
    rewrite token_ne.
    + rewrite E. destruct N; reflexivity.
    + cbn [In] in D. intros <-. destruct N; intuition discriminate.
  - intros n acc st w p wl S1 _ E LN. destruct (statement_start _ _ _ S1) as (tok & pos & w' & -> & SS & _).
    destruct n as [|n]; [lia|]. exists n. split.
    { cbn [app length] in LN. rewrite app_length in LN. cbn [length] in LN. norm. lia. }
    cbn [app until Parse_Model.peek fst consume tl] in *. rewrite token_ne.
    + rewrite E. cbn [and_then]. destruct tok; try destruct SS; reflexivity.
    + cbn [In] in D. intros ->. destruct D as [<-|[<-|[<-|[]]]]; exact SS.
Qed.

Lemma end_parses : forall o w rest pos, maybe o w -> stops (peek rest) ->
  maybe_parse_end eof pos (w ++ rest) = Ok (inl (StEnd o pos), rest).
Proof.
  intros o w rest pos H SR. unfold maybe_parse_end. pose proof (stops_ends rest SR) as AE.
  assert (N : match fst (peek (w ++ rest)) with
    | TkFunction | TkIf | TkSelect | TkSub => False | _ => True end).
  { destruct o as [e|]; cbn [maybe] in H.
    - pose proof (peek_writing e w rest H) as O. destruct (fst (peek (w ++ rest))); exact O || exact Logic.I.
    - subst w. cbn [app]. unfold stops in SR. cbn [In] in SR.
      destruct SR as [<-|[<-|[<-|[]]]]; exact Logic.I. }
  destruct (fst (peek (w ++ rest))); try destruct N; rewrite (parse_maybe o w _ H) by exact AE; reflexivity.
Qed.

Lemma loops_if : forall one pos done g last,
  loops one (fun n acc ts => if_multiline eof one n pos done g acc last ts) (fun _ => True).
Proof.
  intros one pos done g last. constructor.
  - intros n acc p ts. reflexivity.
  - intros n acc t name p ts N E. cbn [if_multiline Parse_Model.peek]. rewrite E. destruct N; reflexivity.
  - intros n acc st w p wl S1 _ E LN. destruct (statement_start _ _ _ S1) as (tok & q & w' & -> & SS & EN & _).
    destruct n as [|n]; [lia|]. cbn [app length] in LN. rewrite app_length in LN. cbn [length] in LN.
    destruct (token_dec tok TkEnd) as [->|NE].
    + destruct (EN eq_refl) as (o & -> & M). destruct n as [|n]; [lia|]. exists n. split; [norm; lia|].
      cbn [app if_multiline Parse_Model.peek consume tl].
      rewrite (end_parses o w' _ q M) by (unfold stops; cbn; tauto). reflexivity.
    + exists n. split; [norm; lia|]. cbn [app if_multiline Parse_Model.peek consume tl] in *. rewrite E.
      destruct tok; try destruct SS; try reflexivity. congruence.
Qed.

Lemma loops_callable : forall one pos f,
  loops one (fun n acc ts => callable_body eof one n pos f acc ts) (fun st => ~ is_callable st).
Proof.
  intros one pos f. constructor.
  - intros n acc p ts. reflexivity.
  - intros n acc t name p ts N E. cbn [callable_body Parse_Model.peek]. rewrite E. destruct N; reflexivity.
  - intros n acc st w p wl S1 NC E LN. destruct (statement_start _ _ _ S1) as (tok & q & w' & -> & SS & EN & CA).
    destruct n as [|n]; [lia|]. cbn [app length] in LN. rewrite app_length in LN. cbn [length] in LN.
    destruct (token_dec tok TkEnd) as [->|NE].
    + destruct (EN eq_refl) as (o & -> & M). destruct n as [|n]; [lia|]. exists n. split; [norm; lia|].
      cbn [app callable_body Parse_Model.peek consume tl].
      rewrite (end_parses o w' _ q M) by (unfold stops; cbn; tauto). reflexivity.
    + exists n. split; [norm; lia|]. cbn [app callable_body Parse_Model.peek consume tl] in *. rewrite E.
      destruct tok; try destruct SS; try reflexivity; try congruence; tauto.
Qed.

Lemma loops_select : forall one pos done gs last,
  loops one (fun n acc ts => select_cases eof one n pos done (Some (gs, acc)) last ts) (fun _ => True).
Proof.
  intros one pos done gs last. constructor.
  - intros n acc p ts. reflexivity.
  - intros n acc t name p ts N E. cbn [select_cases Parse_Model.peek]. rewrite E. destruct N; reflexivity.
  - intros n acc st w p wl S1 _ E LN. destruct (statement_start _ _ _ S1) as (tok & q & w' & -> & SS & EN & _).
    destruct n as [|n]; [lia|]. cbn [app length] in LN. rewrite app_length in LN. cbn [length] in LN.
    destruct (token_dec tok TkEnd) as [->|NE].
    + destruct (EN eq_refl) as (o & -> & M). destruct n as [|n]; [lia|]. exists n. split; [norm; lia|].
      cbn [app select_cases Parse_Model.peek consume tl].
      rewrite (end_parses o w' _ q M) by (unfold stops; cbn; tauto). reflexivity.
    + exists n. split; [norm; lia|]. cbn [app select_cases Parse_Model.peek consume tl] in *. rewrite E.
      destruct tok; try destruct SS; try reflexivity. congruence.
Qed.

Lemma empty_lines : forall ws, lines [] ws -> forall one pos done last rest m, length (ws ++ rest) < m ->
  exists k, length rest < k /\
    select_cases eof one m pos done None last (ws ++ rest) = select_cases eof one k pos done None last rest.
Proof.
  intros ws L. remember [] as l eqn:E. induction L as [|p l w L IH| |]; try discriminate E;
    intros one pos done last rest m LN.
  - exists m. split; [exact LN|reflexivity].
  - destruct m as [|m]; [lia|]. cbn [app length] in LN.
    destruct (IH E one pos done last rest m ltac:(norm; lia)) as (k & K1 & K2). exists k. split; [exact K1|].
    rewrite <- K2. reflexivity.
Qed.


(** * Statements *)

Definition st_parses (st : stmt) (w : list tokspan) (stop : tokspan) : Prop :=
  forall n rest, peek rest = stop -> line_end stop -> (fst stop = TkEof -> rest = []) -> length (w ++ rest) <= S n ->
  exists tok pos w', w = (tok, pos) :: w' /\ starts tok /\
    parse_keyword eof (parse_one eof n) tok pos (w' ++ rest) = Ok (st, rest).
Definition lines_parse (l : list stmt) (w : list tokspan) : Prop :=
  forall n R (F : nat -> list stmt -> toks -> pres R) fine rest, loops (parse_one eof n) F fine ->
  (forall st, In st l -> fine st) -> length (w ++ rest) <= n ->
  forall m acc, length (w ++ rest) < m -> exists k, length rest < k /\ F m acc (w ++ rest) = F k (acc ++ l) rest.
Definition body_parses (body : list stmt) (w next : list tokspan) : Prop :=
  forall n pos done g last rest, length (w ++ next ++ rest) <= n ->
  forall m acc, length (w ++ next ++ rest) < m -> exists k, length (next ++ rest) < k /\
    if_multiline eof (parse_one eof n) m pos done g acc last (w ++ next ++ rest) =
    if_multiline eof (parse_one eof n) k pos done g (acc ++ body) last (next ++ rest).
Definition branches_parse (l : list (expr * list stmt)) (w : list tokspan) : Prop :=
  forall n pos done g body ep ip rest, length (w ++ (TkEnd, ep) :: (TkIf, ip) :: rest) <= n ->
  forall m, length (w ++ (TkEnd, ep) :: (TkIf, ip) :: rest) < m ->
    if_multiline eof (parse_one eof n) m pos done g body false (w ++ (TkEnd, ep) :: (TkIf, ip) :: rest) =
    Ok (done ++ (g, body) :: l, rest).
Definition cases_parse (l : list (list case_guard * list stmt)) (w : list tokspan) : Prop :=
  forall n pos done cur ep sp rest, length (w ++ (TkEnd, ep) :: (TkSelect, sp) :: rest) <= n ->
  forall m, length (w ++ (TkEnd, ep) :: (TkSelect, sp) :: rest) < m ->
    select_cases eof (parse_one eof n) m pos done cur false (w ++ (TkEnd, ep) :: (TkSelect, sp) :: rest) =
    Ok ((done ++ match cur with Some c => [c] | None => [] end ++ l, ep), rest).

Lemma one_statement : forall n tok pos w' rest st, starts tok ->
  parse_keyword eof (parse_one eof n) tok pos (w' ++ rest) = Ok (st, rest) -> line_end (peek rest) ->
  parse_one eof (S n) (((tok, pos) :: w') ++ rest) =
    Ok (Some st, match fst (peek rest) with TkEol => consume rest | _ => rest end).
Proof.
  intros n tok pos w' rest st SS E L. cbn [parse_one]. unfold one_step.
  assert (SK : skip_eols (((tok, pos) :: w') ++ rest) = (tok, pos) :: w' ++ rest).
  { destruct tok; try destruct SS; reflexivity. }
  rewrite SK. cbn [Parse_Model.peek consume tl].
  assert (X : (get st, ts <- parse_keyword eof (parse_one eof n) tok pos (w' ++ rest);
     let '(tok, pos) := peek ts in
      match tok with
      | TkEof => Ok (Some st, ts)
      | TkEol => Ok (Some st, consume ts)
      | _ => bad_token pos "Expected newline but found {}" tok
      end) = Ok (Some st, match fst (peek rest) with TkEol => consume rest | _ => rest end)).
  { rewrite E. cbn [and_then]. destruct (peek rest) as [t p]. destruct L as [L|L]; cbn [fst] in *; subst t; reflexivity. }
  destruct tok; try destruct SS; exact X.
Qed.

Lemma lines_until : forall body wb, lines_parse body wb -> forall n delim p rest, In delim [TkLoop; TkNext; TkWend] ->
  length (wb ++ (delim, p) :: rest) <= n ->
  parse_until eof (parse_one eof n) delim (wb ++ (delim, p) :: rest) = Ok (body, (delim, p) :: rest).
Proof.
  intros body wb H n delim p rest D LN. unfold parse_until.
  destruct (H n _ _ _ ((delim, p) :: rest) (loops_until (parse_one eof n) delim D) (fun _ _ => Logic.I) LN
    (S (length (wb ++ (delim, p) :: rest))) [] (Nat.lt_succ_diag_r _)) as (k & K1 & K2).
  norm. rewrite K2. destruct k as [|k]; [lia|]. cbn [until Parse_Model.peek fst app]. rewrite token_eq. reflexivity.
Qed.

Lemma if_ends : forall one m pos done g body last ep ip rest,
  if_multiline eof one (S m) pos done g body last ((TkEnd, ep) :: (TkIf, ip) :: rest) = Ok (done ++ [(g, body)], rest).
Proof.
  intros. cbn [if_multiline Parse_Model.peek consume tl]. unfold maybe_parse_end.
  cbn [Parse_Model.peek fst and_then]. rewrite expect_at_ok. reflexivity.
Qed.
Lemma select_ends : forall one m pos done cur last ep sp rest,
  select_cases eof one (S m) pos done cur last ((TkEnd, ep) :: (TkSelect, sp) :: rest) =
  Ok ((done ++ match cur with Some c => [c] | None => [] end, ep), rest).
Proof.
  intros. cbn [select_cases Parse_Model.peek consume tl]. unfold maybe_parse_end.
  cbn [Parse_Model.peek fst and_then]. rewrite expect_at_ok. reflexivity.
Qed.
Lemma callable_ends : forall one m pos t body ep ep' rest, t = TkFunction \/ t = TkSub ->
  callable_body eof one (S m) pos (match t with TkFunction => true | _ => false end) body ((TkEnd, ep) :: (t, ep') :: rest) =
  Ok ((body, ep), rest).
Proof.
  intros one m pos t body ep ep' rest T. cbn [callable_body Parse_Model.peek consume tl].
  destruct T as [->| ->]; unfold maybe_parse_end; cbn [Parse_Model.peek fst and_then];
    rewrite token_eq, expect_at_ok; reflexivity.
Qed.

Lemma then_parses : forall body w r, then_part body w (TkElse, r) -> forall e rest,
  parse_if_uniline eof e (w ++ (TkElse, r) :: rest) =
  (get o, ts' <- parse_uniline eof rest;
   Ok ([(e, body); (EBoolean true r, match o with Some st => [st] | None => [] end)], ts')).
Proof.
  intros body w r T e rest. remember (TkElse, r) as stop eqn:E. destruct T as [stop|st w stop SI]; subst stop.
  - reflexivity.
  - destruct (simple_parses st w _ SI ((TkElse, r) :: rest) eq_refl) as (tok & pos & w' & -> & SS & U & _);
      [unfold stops; cbn; tauto|].
    unfold parse_if_uniline. rewrite U. cbn [app Parse_Model.peek fst].
    destruct tok; try destruct SS; reflexivity.
Qed.

Ltac lens := norm; do 6 (repeat rewrite app_length in *; cbn [length] in *; norm).

Theorem all_parse :
  (forall st w stop, statement st w stop -> st_parses st w stop) /\
  (forall l w, lines l w -> lines_parse l w) /\
  (forall body w next, branch_body body w next -> body_parses body w next) /\
  (forall l w, branches l w -> branches_parse l w) /\
  (forall l w, cases l w -> cases_parse l w).
Proof.
  apply statement_mutind.
  - (* simple *)
    intros st w stop SI n rest PK LE LX LN.
    destruct (simple_parses st w stop SI rest PK (line_end_stops _ LE)) as (tok & pos & w' & -> & SS & _ & K).
    exists tok, pos, w'. auto.
  - (* DECLARE *)
    intros p t q name np l w stop SG n rest PK LE LN. do 3 eexists. split; [reflexivity|]. split; [exact Logic.I|].
    cbn [parse_keyword app]. unfold parse_declare. cbn [Parse_Model.peek consume tl].
    destruct (signature_parses t name np l w rest true SG) as [E T].
    { rewrite PK. destruct LE as [LE|LE]; rewrite LE; auto. }
    destruct T as [->| ->]; norm; rewrite E; reflexivity.
  - (* DIM *)
    intros p sh ws name np t wt stop DS DT n rest PK LE LN. do 3 eexists. split; [reflexivity|]. split; [exact Logic.I|].
    cbn [parse_keyword]. unfold parse_dim. rewrite <- PK in LE.
    assert (NL : fst (peek (wt ++ rest)) <> TkLeftParen).
    { destruct DT; [cbn [app]; destruct LE as [X|X]; rewrite X; discriminate|discriminate]. }
    assert (X : forall pos2, match fst (peek (wt ++ rest)) with
      | TkLeftParen =>
          get dims, ts <- parse_comma_separated_exprs (consume (wt ++ rest));
          match dims with
          | [] => bad pos2 "Arrays require at least one dimension"
          | _ =>
              get t, ts <- parse_dim_as eof ts;
              match exprs_of dims with
              | Ok es => Ok (StDimArray name np sh es t, ts)
              | Err x => Err x
              end
          end
      | _ => get t, ts <- parse_dim_as eof (wt ++ rest); Ok (StDim name np sh t, ts)
      end = Ok (StDim name np sh t, rest)).
    { intros pos2. rewrite (dim_as_parses t wt rest DT LE). cbn [and_then].
      destruct (fst (peek (wt ++ rest))); reflexivity || congruence. }
    destruct DS as [|sp]; rewrite <- ?app_assoc; cbn [app Parse_Model.peek fst consume tl unannotated vr_type vr_name and_then];
      specialize (X (snd (peek (wt ++ rest)))); destruct (peek (wt ++ rest)) as [tk tp]; exact X.
  - (* DIM of an array *)
    intros p sh ws name np q args wa es t wt stop DS WA SB NE DT n rest PK LE LX LN.
    do 3 eexists. split; [reflexivity|]. split; [exact Logic.I|].
    cbn [parse_keyword]. unfold parse_dim. rewrite <- PK in LE.
    assert (X : (get dims, ts <- parse_comma_separated_exprs (wa ++ wt ++ rest);
          match dims with
          | [] => bad q "Arrays require at least one dimension"
          | _ =>
              get t, ts <- parse_dim_as eof ts;
              match exprs_of dims with
              | Ok es => Ok (StDimArray name np sh es t, ts)
              | Err x => Err x
              end
          end) = Ok (StDimArray name np sh es t, rest)).
    { rewrite (parse_args_writing eof args wa _ WA). cbn [and_then].
      rewrite (dim_as_parses t wt rest DT LE), (subscripts_exprs args es SB). cbn [and_then].
      destruct args; [|reflexivity]. destruct es; [congruence|discriminate SB]. }
    destruct DS as [|sp]; rewrite <- ?app_assoc; cbn [app Parse_Model.peek fst consume tl unannotated vr_type vr_name and_then];
      rewrite <- ?app_assoc; exact X.
  - (* DO *)
    intros p g pre wpre q body wb r post wpost stop DG GP GQ LB IH n rest PK LE LX LN.
    do 3 eexists. split; [reflexivity|]. split; [exact Logic.I|].
    cbn [parse_keyword]. unfold parse_do. rewrite <- PK in LE.
    rewrite <- app_assoc. cbn [app]. rewrite (guard_parses pre wpre _ _ GP) by (left; reflexivity). cbn [and_then].
    rewrite expect_ok. cbn [and_then]. rewrite <- app_assoc. cbn [app].
    rewrite (lines_until body wb IH) by (first [cbn; tauto|lens; lia]). cbn [and_then].
    rewrite expect_at_ok. cbn [and_then]. rewrite (guard_parses post wpost _ _ GQ) by exact LE. cbn [and_then].
    destruct DG; reflexivity.
  - (* WHILE *)
    intros p e w q body wb r stop W LB IH n rest PK LE LX LN.
    do 3 eexists. split; [reflexivity|]. split; [exact Logic.I|].
    cbn [parse_keyword]. unfold parse_while.
    rewrite <- app_assoc. cbn [app]. rewrite (required e w _ _ W) by (cbn; tauto). cbn [and_then].
    rewrite expect_ok. cbn [and_then]. rewrite <- app_assoc. cbn [app].
    rewrite (lines_until body wb IH) by (first [cbn; tauto|lens; lia]). cbn [and_then].
    rewrite expect_at_ok. reflexivity.
  - (* FOR *)
    intros p v vp q e1 w1 r e2 w2 st up dbl ws nl body wb np stop NN W1 W2 SP LB IH n rest PK LE LX LN.
    do 3 eexists. split; [reflexivity|]. split; [exact Logic.I|].
    cbn [parse_keyword]. unfold parse_for. cbn [app Parse_Model.peek consume tl].
    assert (X : forall A (a b c : A), match vr_type v with None | Some TDouble | Some TInteger => a | Some TBoolean => b | Some TText => c end = a).
    { intros A a b c. destruct NN as [->|[->| ->]]; reflexivity. }
    rewrite X. clear X. rewrite expect_ok. cbn [and_then]. rewrite <- app_assoc. cbn [app].
    rewrite (required e1 w1 _ _ W1) by (cbn; tauto). cbn [and_then]. rewrite expect_ok. cbn [and_then].
    rewrite <- !app_assoc. cbn [app].
    assert (A2 : at_end (ws ++ (TkEol, nl) :: (wb ++ [(TkNext, np)]) ++ rest)) by (destruct SP; cbn; tauto).
    rewrite (required e2 w2 _ _ W2) by exact A2. cbn [and_then].
    destruct (step_parses p st up dbl ws ((TkEol, nl) :: (wb ++ [(TkNext, np)]) ++ rest) SP eq_refl) as (sign & E & ->).
    norm. rewrite E. cbn [and_then].
    assert (Y : forall A (a b : A), match (if up then Gt else Lt) with Eq => a | _ => b end = b) by (intros; destruct up; reflexivity).
    rewrite Y. clear Y. rewrite expect_ok. cbn [and_then]. rewrite <- app_assoc. cbn [app].
    rewrite (lines_until body wb IH) by (first [cbn; tauto|lens; lia]). cbn [and_then].
    rewrite expect_at_ok. cbn [and_then]. destruct up; reflexivity.
  - (* IF *)
    intros p e w q nl body wb rest' wr ep ip stop W BB IH BR IHr n rest PK LE LX LN.
    do 3 eexists. split; [reflexivity|]. split; [exact Logic.I|].
    cbn [parse_keyword]. unfold parse_if.
    rewrite <- app_assoc. cbn [app]. rewrite (required e w _ _ W) by (cbn; tauto). cbn [and_then].
    rewrite expect_ok. cbn [and_then Parse_Model.peek fst]. rewrite <- !app_assoc. cbn [app].
    lens.
    remember (S (S (length wb + (length wr + S (S (length rest)))))) as m eqn:Em.
    destruct m as [|m]; [discriminate Em|]. cbn [if_multiline Parse_Model.peek consume tl].
    destruct (IH n p [] e false ((TkEnd, ep) :: (TkIf, ip) :: rest)) with (m := m) (acc := @nil stmt) as (k & K1 & K2); [lens; lia|lens; lia|].
    norm. rewrite K2. cbn [app]. lens. rewrite (IHr n p [] e body ep ip rest) by (lens; lia). reflexivity.
  - (* one-line IF *)
    intros p e w q st ws stop W SI n rest PK LE LX LN.
    do 3 eexists. split; [reflexivity|]. split; [exact Logic.I|].
    cbn [parse_keyword]. unfold parse_if.
    rewrite <- app_assoc. cbn [app]. rewrite (required e w _ _ W) by (cbn; tauto). cbn [and_then].
    rewrite expect_ok. cbn [and_then].
    destruct (simple_parses st ws stop SI rest PK (line_end_stops _ LE)) as (tok & pos & w' & -> & SS & U & _).
    assert (X : parse_if_uniline eof e (((tok, pos) :: w') ++ rest) = Ok ([(e, [st])], rest)).
    { unfold parse_if_uniline. norm. rewrite U. rewrite <- PK in LE.
      cbn [app Parse_Model.peek fst and_then]. destruct tok; try destruct SS; cbn [and_then];
        (destruct LE as [X|X]; rewrite X; reflexivity). }
    norm. rewrite X. cbn [app Parse_Model.peek fst and_then]. destruct tok; try destruct SS; reflexivity.
  - (* one-line IF with ELSE *)
    intros p e w q body1 w1 r body2 w2 stop W TP EP n rest PK LE LX LN.
    do 3 eexists. split; [reflexivity|]. split; [exact Logic.I|].
    cbn [parse_keyword]. unfold parse_if.
    rewrite <- app_assoc. cbn [app]. rewrite (required e w _ _ W) by (cbn; tauto). cbn [and_then].
    rewrite expect_ok. cbn [and_then]. rewrite <- app_assoc. cbn [app].
    assert (NE : line_end (peek (w1 ++ (TkElse, r) :: w2 ++ rest)) -> False).
    { remember (TkElse, r) as s1 eqn:E. destruct TP as [s1|st w1 s1 SI]; subst s1.
      - intros [X|X]; discriminate X.
      - destruct (simple_parses st w1 _ SI ((TkElse, r) :: w2 ++ rest) eq_refl) as (tok & pos & w' & -> & SS & _);
          [unfold stops; cbn; tauto|]. intros [X|X]; cbn in X; subst tok; exact SS. }
    assert (X : parse_if_uniline eof e (w1 ++ (TkElse, r) :: w2 ++ rest) = Ok ([(e, body1); (EBoolean true r, body2)], rest)).
    { rewrite (then_parses body1 w1 r TP e). destruct EP as [st w2 stop SI|p0|p0 stop].
      - destruct (simple_parses st w2 stop SI rest PK (line_end_stops _ LE)) as (tok & pos & w' & -> & SS & U & _).
        rewrite U. reflexivity.
      - cbn [app]. unfold parse_uniline. destruct rest as [|[t2 p2] rest]; [reflexivity|].
        exfalso. discriminate (LX eq_refl).
      - reflexivity. }
    norm. rewrite X. revert NE. unfold line_end.
    match goal with |- context [match fst ?x with _ => _ end] => destruct x as [tk tp] end.
    cbn [fst]. intros NE. destruct tk; try reflexivity; exfalso; apply NE; first [left; reflexivity|right; reflexivity].
  - (* SELECT *)
    intros p q e w nl ws l wl ep sp stop W LS IHs CS IH n rest PK LE LX LN.
    do 3 eexists. split; [reflexivity|]. split; [exact Logic.I|].
    cbn [parse_keyword]. unfold parse_select. cbn [app]. rewrite expect_ok. cbn [and_then].
    rewrite <- app_assoc. cbn [app]. rewrite (required e w _ _ W) by (cbn; tauto). cbn [and_then].
    rewrite expect_ok. cbn [and_then]. rewrite <- !app_assoc. cbn [app].
    destruct (empty_lines ws LS (parse_one eof n) p [] false (wl ++ (TkEnd, ep) :: (TkSelect, sp) :: rest)
      (S (length (ws ++ wl ++ (TkEnd, ep) :: (TkSelect, sp) :: rest))) ltac:(lia)) as (k & K1 & K2).
    norm. rewrite K2. rewrite (IH n p [] None ep sp rest) by (lens; lia). reflexivity.
  - (* FUNCTION, SUB *)
    intros t p name np l w nl body wb ep ep' stop SG LB IH NC n rest PK LE LX LN.
    do 3 eexists. split; [reflexivity|]. split; [destruct SG; exact Logic.I|].
    destruct (signature_parses t name np l w ((TkEol, nl) :: (wb ++ [(TkEnd, ep); (t, ep')]) ++ rest) false SG) as [E T];
      [left; reflexivity|].
    assert (X : parse_callable eof (parse_one eof n) (match t with TkFunction => true | _ => false end) p
        (w ++ (TkEol, nl) :: (wb ++ [(TkEnd, ep); (t, ep')]) ++ rest) = Ok (StCallable name np l body ep, rest)).
    { unfold parse_callable. norm. rewrite E. cbn [and_then]. rewrite <- app_assoc. cbn [app].
      lens.
      remember (S (S (length wb + S (S (length rest))))) as m eqn:Em.
      destruct m as [|m]; [discriminate Em|].
      rewrite (lo_eol _ _ _ (loops_callable (parse_one eof n) p (match t with TkFunction => true | _ => false end))).
      destruct (IH n _ _ _ ((TkEnd, ep) :: (t, ep') :: rest) (loops_callable (parse_one eof n) p (match t with TkFunction => true | _ => false end)) NC)
        with (m := m) (acc := @nil stmt) as (k & K1 & K2); [lens; lia|lens; lia|].
      norm. rewrite K2. destruct k as [|k]; [lia|]. rewrite callable_ends by exact T. reflexivity. }
    rewrite <- app_assoc. cbn [app]. destruct T as [->| ->]; exact X.
  - (* no lines *)
    intros n R F fine rest LO FI LN m acc LM. exists m. split; [exact LM|]. rewrite app_nil_r. reflexivity.
  - (* empty line *)
    intros p l w LB IH n R F fine rest LO FI LN m acc LM. cbn [app length] in *.
    destruct m as [|m]; [lia|]. rewrite (lo_eol _ _ _ LO).
    apply (IH n R F fine rest LO FI); norm; lia.
  - (* label *)
    intros t name p l w NL LB IH n R F fine rest LO FI LN m acc LM. cbn [app length] in *.
    destruct m as [|m]; [lia|]. destruct n as [|n]; [lia|].
    norm. rewrite (lo_label _ _ _ LO m acc t name p _ NL) by (destruct NL; reflexivity).
    destruct (IH (S n) R F fine rest LO) with (m := m) (acc := acc ++ [StLabel name p]) as (k & K1 & K2);
      [intros; apply FI; right; assumption|norm; lia|norm; lia|].
    exists k. split; [exact K1|]. rewrite K2, <- app_assoc. reflexivity.
  - (* statement *)
    intros st w p l wl S1 IH1 LB IH n R F fine rest LO FI LN m acc LM.
    rewrite <- app_assoc in *. cbn [app] in *.
    destruct n as [|n]; [lens; lia|].
    destruct (IH1 n ((TkEol, p) :: wl ++ rest) eq_refl (or_introl eq_refl) (fun X : TkEol = TkEof => False_ind _ (eq_ind TkEol (fun t => match t with TkEol => True | _ => False end) Logic.I TkEof X))) as (tok & pos & w' & -> & SS & E); [norm; lia|].
    pose proof (one_statement n tok pos w' ((TkEol, p) :: wl ++ rest) st SS E (or_introl eq_refl)) as O1.
    cbn [Parse_Model.peek fst consume tl] in O1. norm.
    destruct (lo_stmt _ _ _ LO m acc st ((tok, pos) :: w') p (wl ++ rest) S1 (FI st (or_introl eq_refl)) O1 LM) as (k & K1 & K2).
    norm. rewrite K2.
    destruct (IH (S n) R F fine rest LO) with (m := k) (acc := acc ++ [st]) as (k' & K3 & K4);
      [intros; apply FI; right; assumption|lens; lia|exact K1|].
    exists k'. split; [exact K3|]. rewrite K4, <- app_assoc. reflexivity.
  - (* body of a branch *)
    intros body w next LB IH n pos done g last rest LN m acc LM.
    apply (IH n _ _ _ (next ++ rest) (loops_if (parse_one eof n) pos done g last) (fun _ _ => Logic.I) LN m acc LM).
  - (* END right before ELSE *)
    intros body w o we p q next LB IH M n pos done g last rest LN m acc LM.
    rewrite <- app_assoc in *. cbn [app] in *.
    destruct (IH n _ _ _ ((TkEnd, p) :: we ++ (TkElse, q) :: next ++ rest) (loops_if (parse_one eof n) pos done g last) (fun _ _ => Logic.I) LN m acc LM)
      as (k & K1 & K2).
    norm. rewrite K2. destruct k as [|k]; [lia|]. exists k. split; [lens; lia|].
    cbn [if_multiline Parse_Model.peek consume tl].
    rewrite (end_parses o we _ p M) by (unfold stops; cbn; tauto). cbn [and_then]. rewrite <- app_assoc. reflexivity.
  - (* no more branches *)
    intros n pos done g body ep ip rest LN m LM. destruct m as [|m]; [lia|]. apply if_ends.
  - (* ELSE *)
    intros p q body wb LB IH n pos done g body0 ep ip rest LN m LM.
    destruct m as [|m]; [lia|]. cbn [app if_multiline Parse_Model.peek consume tl]. rewrite expect_ok. cbn [and_then].
    destruct (IH n _ _ _ ((TkEnd, ep) :: (TkIf, ip) :: rest) (loops_if (parse_one eof n) pos (done ++ [(g, body0)]) (EBoolean true p) true) (fun _ _ => Logic.I))
      with (m := m) (acc := @nil stmt) as (k & K1 & K2); [lens; lia|lens; lia|].
    norm. rewrite K2. destruct k as [|k]; [lia|]. rewrite if_ends, <- app_assoc. reflexivity.
  - (* ELSEIF *)
    intros p e w q nl body wb rest' wr W BB IH BR IHr n pos done g body0 ep ip rest LN m LM.
    destruct m as [|m]; [lia|]. cbn [app if_multiline Parse_Model.peek consume tl].
    rewrite <- app_assoc. cbn [app]. rewrite (required e w _ _ W) by (cbn; tauto). cbn [and_then].
    rewrite expect_ok. cbn [and_then]. rewrite expect_ok. cbn [and_then]. rewrite <- app_assoc.
    destruct (IH n pos (done ++ [(g, body0)]) e false ((TkEnd, ep) :: (TkIf, ip) :: rest)) with (m := m) (acc := @nil stmt) as (k & K1 & K2); [lens; lia|lens; lia|].
    norm. rewrite K2. rewrite (IHr n pos) by (lens; lia). rewrite <- app_assoc. reflexivity.
  - (* no more cases *)
    intros n pos done cur ep sp rest LN m LM. destruct m as [|m]; [lia|]. cbn [app]. rewrite select_ends, app_nil_r. reflexivity.
  - (* CASE ELSE *)
    intros p q nl body wb LB IH n pos done cur ep sp rest LN m LM.
    destruct m as [|m]; [lia|]. cbn [app select_cases Parse_Model.peek consume tl].
    unfold parse_case_guards. cbn [case_guards Parse_Model.peek fst consume tl ends_line and_then].
    rewrite expect_ok. cbn [and_then].
    destruct (IH n _ _ _ ((TkEnd, ep) :: (TkSelect, sp) :: rest) (loops_select (parse_one eof n) pos (done ++ match cur with Some c => [c] | None => [] end) [] true) (fun _ _ => Logic.I))
      with (m := m) (acc := @nil stmt) as (k & K1 & K2); [lens; lia|lens; lia|].
    norm. rewrite K2. destruct k as [|k]; [lia|]. rewrite select_ends, <- app_assoc. reflexivity.
  - (* CASE *)
    intros p gs w nl body wb rest' wr CT LB IH CS IHr n pos done cur ep sp rest LN m LM.
    destruct m as [|m]; [lia|]. cbn [app select_cases Parse_Model.peek consume tl].
    unfold parse_case_guards. rewrite <- app_assoc. cbn [app].
    rewrite (guards_parse gs w CT) by (first [reflexivity|norm; lia]). cbn [and_then app].
    rewrite expect_ok. cbn [and_then]. rewrite <- app_assoc.
    assert (NG : match gs with [] => true | _ => false end = false) by (destruct CT; reflexivity).
    rewrite NG.
    destruct (IH n _ _ _ (wr ++ (TkEnd, ep) :: (TkSelect, sp) :: rest) (loops_select (parse_one eof n) pos (done ++ match cur with Some c => [c] | None => [] end) gs false) (fun _ _ => Logic.I))
      with (m := m) (acc := @nil stmt) as (k & K1 & K2); [lens; lia|lens; lia|].
    norm. rewrite K2. rewrite (IHr n pos) by (lens; lia). rewrite <- app_assoc. reflexivity.
Qed.


(** * Programs *)

Definition eols (w : list tokspan) : Prop := Forall (fun t => fst t = TkEol) w.
Lemma skip_eols_app : forall es, eols es -> forall ts, skip_eols (es ++ ts) = skip_eols ts.
Proof.
  induction es as [|[t p] es IH]; intros H ts; [reflexivity|]. inversion H; subst. cbn [fst] in *. subst t. apply IH. assumption.
Qed.
Lemma parse_one_eols : forall n es ts, eols es -> parse_one eof n (es ++ ts) = parse_one eof n ts.
Proof.
  intros [|n] es ts H; [reflexivity|]. cbn [parse_one]. unfold one_step. rewrite (skip_eols_app es H). reflexivity.
Qed.

Lemma all_lines : forall l w, lines l w -> forall es, eols es -> forall m rest, length (es ++ w ++ rest) < m ->
  exists k es', eols es' /\ length (es' ++ rest) < k /\
    parse_all eof m (es ++ w ++ rest) =
    (l ++ fst (parse_all eof k (es' ++ rest)), snd (parse_all eof k (es' ++ rest))).
Proof.
  induction 1 as [|p l w LB IH|t name p l w NL LB IH|st w p l wl ST LB IH]; intros es ES m rest LM.
  - exists m, es. split; [exact ES|]. split; [exact LM|]. cbn [app]. apply surjective_pairing.
  - destruct (IH (es ++ [(TkEol, p)])) with (m := m) (rest := rest) as (k & es' & E1 & E2 & E3).
    { apply Forall_app. split; [exact ES|]. constructor; [reflexivity|constructor]. }
    { rewrite <- app_assoc. exact LM. }
    exists k, es'. split; [exact E1|]. split; [exact E2|].
    rewrite <- E3, <- app_assoc. reflexivity.
  - destruct m as [|m]; [lia|].
    assert (O1 : parse_one eof (S (length (es ++ ((t, p) :: w) ++ rest))) (es ++ ((t, p) :: w) ++ rest) =
                 Ok (Some (StLabel name p), w ++ rest)).
    { rewrite (parse_one_eols _ _ _ ES). destruct NL; reflexivity. }
    destruct (IH [] (Forall_nil _)) with (m := m) (rest := rest) as (k & es' & E1 & E2 & E3); [lens; lia|].
    exists k, es'. split; [exact E1|]. split; [exact E2|].
    cbn [parse_all]. norm. rewrite O1. cbn [app] in E3. rewrite E3. reflexivity.
  - destruct m as [|m]; [lia|].
    assert (O1 : parse_one eof (S (length (es ++ (w ++ (TkEol, p) :: wl) ++ rest))) (es ++ (w ++ (TkEol, p) :: wl) ++ rest) =
                 Ok (Some st, wl ++ rest)).
    { rewrite (parse_one_eols _ _ _ ES). remember (length (es ++ (w ++ (TkEol, p) :: wl) ++ rest)) as k eqn:Ek.
      rewrite <- app_assoc. cbn [app].
      destruct (proj1 all_parse st w _ ST k ((TkEol, p) :: wl ++ rest)) as (tok & pos & w' & -> & SS & E);
        [reflexivity|left; reflexivity|discriminate|lens; lia|].
      exact (one_statement _ tok pos w' _ st SS E (or_introl eq_refl)). }
    destruct (IH [] (Forall_nil _)) with (m := m) (rest := rest) as (k & es' & E1 & E2 & E3); [lens; lia|].
    exists k, es'. split; [exact E1|]. split; [exact E2|].
    cbn [parse_all]. norm. rewrite O1. cbn [app] in E3. rewrite E3. reflexivity.
Qed.

Theorem program_parses : forall l w, program eof l w -> parse_stmts eof w = (l, None).
Proof.
  intros l w H. unfold parse_stmts. destruct H as [l w L|l w st ws L ST].
  - destruct (all_lines l w L [] (Forall_nil _) (S (length w)) []) as (k & es' & E1 & E2 & E3).
    { cbn [app]. rewrite app_nil_r. lia. }
    cbn [app] in E3. rewrite !app_nil_r in *. rewrite E3.
    destruct k as [|k]; [lia|].
    assert (O1 : parse_one eof (S (length es')) es' = Ok (None, [])).
    { rewrite <- (app_nil_r es') at 2. rewrite (parse_one_eols _ _ _ E1). reflexivity. }
    cbn [parse_all]. rewrite O1. cbn [fst snd]. rewrite app_nil_r. reflexivity.
  - destruct (all_lines l w L [] (Forall_nil _) (S (length (w ++ ws))) ws) as (k & es' & E1 & E2 & E3).
    { cbn [app]. lia. }
    cbn [app] in E3. rewrite E3. destruct k as [|k]; [lia|].
    assert (O1 : parse_one eof (S (length (es' ++ ws))) (es' ++ ws) = Ok (Some st, [])).
    { rewrite (parse_one_eols _ _ _ E1).
      destruct (proj1 all_parse st ws _ ST (length (es' ++ ws)) []) as (tok & pos & w' & -> & SS & E);
        [reflexivity|right; reflexivity|reflexivity|lens; lia|].
      rewrite <- (app_nil_r ((tok, pos) :: w')) at 2.
      exact (one_statement _ tok pos w' _ st SS E (or_intror eq_refl)). }
    destruct k as [|k].
    { destruct (proj1 all_parse st ws _ ST (length ws) []) as (tok & pos & w' & -> & _);
        [reflexivity|right; reflexivity|reflexivity|rewrite app_nil_r; norm; lia|]. lens. lia. }
    cbn [parse_all]. rewrite O1. reflexivity.
Qed.

End Eof.
