(** What the parser of statements accepts is written as statements are. *)
From Coq Require Import String.
From Verif Require Import Base Bytecode_Model Num_Model Vm_Model Ast_Model Strings_Model Lex_Model Parse_Model
  Parse_Spec Parse_Proofs Stmts_Model Stmts_Spec Stmts_Proofs StmtsEnd_Proofs.
Local Open Scope nat_scope.
Local Open Scope list_scope.

Lemma and_then_ok : forall A B (x : pres (A * toks)) (k : A -> toks -> pres B) r, and_then x k = Ok r ->
  exists a ts, x = Ok (a, ts) /\ k a ts = Ok r.
Proof. intros A B [[a ts]|e] k r H; [|discriminate H]. exists a, ts. auto. Qed.

(** * Expressions do not contain the ends of lines *)

Definition no_break (t : tokspan) : Prop := fst t <> TkEol /\ fst t <> TkThen /\ fst t <> TkElse.

Section Eof.
Variable eof : linecol.
Local Notation peek := (peek eof).
Local Notation expr_loop := (expr_loop eof).
Local Notation call_args := (call_args eof).

Lemma peek_cons : forall ts t p, peek ts = (t, p) -> t <> TkEof -> ts = (t, p) :: consume ts.
Proof. intros [|x ts] t p E X; cbn in *; [congruence|]. rewrite E. reflexivity. Qed.
Lemma peek_cons' : forall ts t, fst (peek ts) = t -> t <> TkEof -> ts = (t, snd (peek ts)) :: consume ts.
Proof. intros ts t E X. destruct (peek ts) as [t' p] eqn:P. cbn [fst snd] in *. subst t'. apply peek_cons; assumption. Qed.

Lemma no_breaks : forall n,
  (forall es ops need ts r rest, expr_loop n es ops need ts = Ok (r, rest) ->
     exists w, ts = w ++ rest /\ Forall no_break w) /\
  (forall f spans ts a rest, call_args n f spans ts = Ok (a, rest) ->
     exists w, ts = w ++ rest /\ Forall no_break w).
Proof.
  induction n as [|n [IH1 IH2]]; [split; intros; discriminate|].
  split.
  - intros es ops need ts r rest H. rewrite expr_loop_S in H. unfold loop_step in H.
    destruct (peek ts) as [tok pos] eqn:P.
    destruct (ends_expr tok ops) eqn:EE.
    { destruct (finish es ops); [|discriminate H]. apply Ok_inj, pair_equal_spec in H.
      destruct H as [_ <-]. exists []. split; [reflexivity|constructor]. }
    cbv zeta in H.
    assert (NE : tok <> TkEof) by (intros ->; discriminate EE).
    pose proof (peek_cons _ _ _ P NE) as E.
    assert (NB : no_break (tok, pos)) by (split; [|split]; intros X; cbn in X; subst tok; discriminate EE).
    assert (K : forall es' ops' need' r', expr_loop n es' ops' need' (consume ts) = Ok (r', rest) ->
      exists w, ts = w ++ rest /\ Forall no_break w).
    { intros es' ops' need' r' X. destruct (IH1 _ _ _ _ _ _ X) as (w & Ew & F). exists ((tok, pos) :: w).
      split; [cbn [app]; rewrite <- Ew; exact E|constructor; assumption]. }
    destruct (operand_of (tok, pos)) as [x|]; [destruct need; [eapply K; exact H|discriminate H]|].
    destruct tok; try discriminate H; cbn [binop_of] in H;
      try (destruct (reduce _ es ops) as [[? ?]|?]; [eapply K; exact H|discriminate H]).
    + destruct es as [|[] r0]; destruct need; try discriminate H; try (eapply K; exact H).
      destruct (call_args n true [] (consume ts)) as [[a t1]|?] eqn:C; [|discriminate H].
      apply IH2 in C. destruct C as (w1 & E1 & F1). apply IH1 in H. destruct H as (w2 & E2 & F2).
      exists ((TkLeftParen, pos) :: w1 ++ w2). split.
      * cbn [app]. rewrite <- app_assoc, <- E2, <- E1. exact E.
      * constructor; [exact NB|]. apply Forall_app. auto.
    + destruct (close_paren es ops) as [[? ?]|?]; [eapply K; exact H|discriminate H].
    + destruct need; [eapply K; exact H|].
      destruct (reduce _ es ops) as [[? ?]|?]; [eapply K; exact H|discriminate H].
    + eapply K; exact H.
  - intros f spans ts a rest H. rewrite call_args_S in H. unfold args_step in H.
    destruct (expr_loop n [] [] true ts) as [[prev ts1]|?] eqn:C; [|discriminate H].
    apply IH1 in C. destruct C as (w1 & E1 & F1).
    destruct (peek ts1) as [tok pos] eqn:P.
    assert (K : forall w2, (tok = TkComma \/ tok = TkRightParen) -> consume ts1 = w2 ++ rest -> Forall no_break w2 ->
      exists w, ts = w ++ rest /\ Forall no_break w).
    { intros w2 T E2 F2. exists (w1 ++ (tok, pos) :: w2). split.
      - rewrite <- app_assoc. cbn [app]. rewrite <- E2.
        assert (E3 : ts1 = (tok, pos) :: consume ts1).
        { apply peek_cons; [exact P|]. intros X. subst tok. destruct T as [T|T]; discriminate T. }
        rewrite E1. f_equal. exact E3.
      - apply Forall_app. split; [exact F1|]. constructor; [|exact F2].
        destruct T as [-> | ->]; (split; [|split]); discriminate. }
    assert (Z : forall y, @Ok parse_error _ (y, consume ts1) = Ok (a, rest) -> tok = TkRightParen -> exists w, ts = w ++ rest /\ Forall no_break w).
    { intros y X T. apply Ok_inj, pair_equal_spec in X. destruct X as [_ X]. apply (K []); [auto|exact X|constructor]. }
    destruct tok; try discriminate H.
    + destruct prev; [|discriminate H]. apply IH2 in H. destruct H as (w2 & E2 & F2). apply (K w2); auto.
    + destruct prev; [eapply Z; [exact H|reflexivity]|]. destruct f; [eapply Z; [exact H|reflexivity]|discriminate H].
Qed.

(** * The tokens of a program *)

Lemma begins_last : forall a t p, statement_begins (a ++ [(t, p)]) ->
  In t [TkEol; TkThen; TkElse] \/ ((exists name, names_label t name) /\ statement_begins a).
Proof.
  intros a t p H. remember (a ++ [(t, p)]) as l eqn:E.
  destruct H as [|a' t' p' T|a' t' name p' T B].
  - destruct a; discriminate E.
  - apply app_inj_tail in E. destruct E as [_ E]. apply pair_equal_spec in E. destruct E as [-> _]. left. exact T.
  - apply app_inj_tail in E. destruct E as [-> E]. apply pair_equal_spec in E. destruct E as [-> _]. right.
    split; [exists name; exact T|exact B].
Qed.

(** A token that can come before an expression. *)
Definition quiet (t : token) : Prop :=
  ~ ends_operand t /\ t <> TkEol /\ t <> TkThen /\ t <> TkElse /\ forall l, t <> TkLabel l.

Variable full : list tokspan.
Hypothesis USUAL : usual_program full.
Definition within (ts : list tokspan) : Prop := exists a, full = a ++ ts.

Lemma within_app : forall w ts, within (w ++ ts) -> within ts.
Proof. intros w ts [a E]. exists (a ++ w). rewrite <- app_assoc. exact E. Qed.
Lemma within_cons : forall t ts, within (t :: ts) -> within ts.
Proof. intros t ts. apply (within_app [t]). Qed.
Lemma within_eof : forall ts, within ts -> fst (peek ts) = TkEof -> ts = [].
Proof.
  intros [|[t p] ts] [a E] X; [reflexivity|]. cbn in X. subst t. exfalso.
  apply (up_eof _ USUAL p). rewrite E. apply in_or_app. right. left. reflexivity.
Qed.

(** The token before. *)
Definition before (a : list tokspan) (pp : token) : Prop :=
  a = [] /\ pp = TkEol \/ exists a' p, a = a' ++ [(pp, p)].
Lemma before_ex : forall a, exists pp, before a pp.
Proof.
  intros a. destruct a as [|x a'] eqn:E; [exists TkEol; left; auto|]. rewrite <- E.
  destruct (exists_last (l := a)) as (b & [t p] & X); [rewrite E; discriminate|]. exists t. right. exists b, p. exact X.
Qed.

Lemma tidy_clean : forall w a x px rest pp, full = a ++ (x, px) :: w ++ rest ->
  ~ statement_begins (a ++ [(x, px)]) -> (ends_operand x -> ~ ((exists v, x = TkSymbol v) /\ statement_begins a)) ->
  Forall no_break w -> before a pp -> clean pp x w.
Proof.
  induction w as [|[t p] w IH]; intros a x px rest pp E NB NS F BF; [exact Logic.I|].
  cbn [clean app] in *. pose proof (Forall_inv F) as N1. pose proof (Forall_inv_tail F) as F1.
  split; [|split; [|split]].
  - intros [-> X]. apply (NS X). apply (up_not _ USUAL a (w ++ rest) x px p E X).
  - intros [-> ->]. exact (up_call _ USUAL a (w ++ rest) px p E).
  - intros (-> & -> & X). destruct (up_empty _ USUAL a (w ++ rest) px p E) as (a' & v & r & Ea).
    destruct BF as [[Z _]|(b & q & Z)].
    + rewrite Z in Ea. destruct a'; discriminate Ea.
    + rewrite Z in Ea. apply app_inj_tail in Ea. destruct Ea as [_ Ea]. apply pair_equal_spec in Ea. destruct Ea as [-> _].
      apply X. exact Logic.I.
  - apply (IH (a ++ [(x, px)]) t p rest); [rewrite <- app_assoc; exact E| | |exact F1|].
    + intros B. apply begins_last in B. destruct B as [B|[_ B]]; [|exact (NB B)].
      destruct N1 as (N1 & N2 & N3). cbn [fst] in *. destruct B as [B|[B|[B|[]]]]; congruence.
    + intros _ [_ B]. exact (NB B).
    + right. exists a, px. reflexivity.
Qed.

(** * Expressions *)

Lemma quiet_clean : forall x px ts w rest, within ((x, px) :: ts) -> quiet x -> ts = w ++ rest -> Forall no_break w ->
  exists pp, clean pp x w.
Proof.
  intros x px ts w rest [a E] Q -> F. destruct (before_ex a) as [pp BF]. exists pp.
  destruct Q as (Q1 & Q2 & Q3 & Q4 & Q5).
  apply (tidy_clean w a x px rest); [exact E| |tauto|exact F|exact BF].
  intros B. apply begins_last in B. destruct B as [[B|[B|[B|[]]]]|[[name NL] _]]; try congruence.
  destruct NL; [apply Q1; exact Logic.I|exact (Q5 _ eq_refl)].
Qed.

Lemma conv_expr : forall x px ts o rest, within ((x, px) :: ts) -> quiet x -> parse_expr eof None ts = Ok (o, rest) ->
  exists w, ts = w ++ rest /\ at_end rest /\ maybe o w.
Proof.
  intros x px ts o rest W Q H. unfold parse_expr in H.
  destruct (proj1 (no_breaks (fuel ts)) _ _ _ _ _ _ H) as (w' & E' & F).
  destruct (quiet_clean x px ts w' rest W Q E' F) as [pp C].
  destruct (proj1 (conv eof (fuel ts)) [] [] true ts o rest pp x [] H (proj1 Q) Logic.I) as (w & E & AE & K).
  assert (w = w') by (apply (app_inv_tail rest); congruence). subst w'.
  exists w. split; [exact E|]. split; [exact AE|]. destruct (K C) as [_ K2].
  assert (S0 : sound x [] [] true []) by constructor. specialize (K2 S0). destruct o; exact K2.
Qed.

Lemma conv_required : forall x px msg ts e rest, within ((x, px) :: ts) -> quiet x ->
  parse_required_expr eof msg ts = Ok (e, rest) -> exists w, ts = w ++ rest /\ at_end rest /\ writing e w.
Proof.
  intros x px msg ts e rest W Q H. unfold parse_required_expr in H.
  destruct (parse_expr eof None ts) as [[[e'|] ts']|?] eqn:P; try discriminate H.
  apply Ok_inj, pair_equal_spec in H. destruct H as [-> ->].
  exact (conv_expr x px ts (Some e) rest W Q P).
Qed.

Lemma conv_args : forall px ts a rest, within ((TkLeftParen, px) :: ts) ->
  parse_comma_separated_exprs eof ts = Ok (a, rest) -> exists w, ts = w ++ rest /\ writes_args a w.
Proof.
  intros px ts a rest W H. unfold parse_comma_separated_exprs in H.
  destruct (proj2 (no_breaks (fuel ts)) _ _ _ _ _ H) as (w' & E' & F).
  assert (Q : quiet TkLeftParen) by (split; [intros X; exact X|]; repeat split; discriminate).
  destruct (quiet_clean _ px ts w' rest W Q E' F) as [pp C].
  destruct (proj2 (conv eof (fuel ts)) true [] ts a rest pp TkLeftParen H (proj1 Q)) as (w1 & q & E & K).
  assert (w' = w1 ++ [(TkRightParen, q)]).
  { apply (app_inv_tail rest). rewrite <- E', <- app_assoc. exact E. }
  subst w'. exists (w1 ++ [(TkRightParen, q)]). split; [exact E'|].
  destruct (K C) as (args & -> & [WS|(_ & -> & ->)]); cbn [app].
  - apply wa_some. exact WS.
  - apply wa_none.
Qed.

(** An expression that begins with one in parentheses, already read. *)
Lemma conv_first : forall p we q ts e o rest, within ((TkLeftParen, p) :: we ++ (TkRightParen, q) :: ts) ->
  writing e we -> parse_expr eof (Some e) ts = Ok (o, rest) ->
  exists w, ts = w ++ rest /\ at_end rest /\ exists e', o = Some e' /\ writing e' ((TkLeftParen, p) :: we ++ (TkRightParen, q) :: w).
Proof.
  intros p we q ts e o rest [a E] (h & t & WE) H. unfold parse_expr in H.
  destruct (proj1 (no_breaks (fuel ts)) _ _ _ _ _ _ H) as (w' & E' & F).
  destruct (before_ex (a ++ (TkLeftParen, p) :: we)) as [pp BF].
  assert (C : clean pp TkRightParen w').
  { apply (tidy_clean w' (a ++ (TkLeftParen, p) :: we) TkRightParen q rest); [| | |exact F|exact BF].
    - rewrite <- app_assoc. cbn [app]. rewrite E, E'. reflexivity.
    - intros B. apply begins_last in B. destruct B as [[B|[B|[B|[]]]]|[[name NL] _]]; try discriminate B. inversion NL.
    - intros _ [[v X] _]. discriminate X. }
  destruct (proj1 (conv eof (fuel ts)) [e] [] false ts o rest pp TkRightParen ((TkLeftParen, p) :: we ++ [(TkRightParen, q)]) H Logic.I Logic.I) as (w & Ew & AE & K).
  assert (w = w') by (apply (app_inv_tail rest); congruence). subst w'.
  exists w. split; [exact Ew|]. split; [exact AE|]. destruct (K C) as [_ K2].
  assert (S0 : sound TkRightParen [e] [] false ((TkLeftParen, p) :: we ++ [(TkRightParen, q)])).
  { exists e, [], [], ((TkLeftParen, p) :: we ++ [(TkRightParen, q)]). split; [reflexivity|]. split; [constructor|].
    split; [econstructor; exact WE|]. split; [reflexivity|]. intros X. congruence. }
  specialize (K2 S0). cbn [app] in K2. rewrite <- app_assoc in K2. cbn [app] in K2.
  destruct o as [e'|]; [|discriminate K2]. exists e'. split; [reflexivity|exact K2].
Qed.

(** An expression right after the name of a command. *)
Lemma clean_other : forall w pp pp' x, x <> TkLeftParen -> clean pp x w -> clean pp' x w.
Proof.
  intros [|[t p] w] pp pp' x N1 C; [exact Logic.I|]. cbn [clean] in *. destruct C as (C1 & C2 & C3 & C4).
  split; [exact C1|]. split; [exact C2|]. split; [intros (_ & X & _); exact (N1 X)|exact C4].
Qed.
Lemma conv_command_expr : forall v px ts o rest, within ((TkSymbol v, px) :: ts) -> fst (peek ts) <> TkLeftParen ->
  parse_expr eof None ts = Ok (o, rest) -> exists w, ts = w ++ rest /\ at_end rest /\ maybe o w.
Proof.
  intros v px ts o rest [a E] NL H. unfold parse_expr in H.
  destruct (proj1 (no_breaks (fuel ts)) _ _ _ _ _ _ H) as (w' & E' & F).
  assert (C : clean TkEol TkEol w').
  { destruct w' as [|[t p] w']; [exact Logic.I|]. pose proof (Forall_inv F) as N1. pose proof (Forall_inv_tail F) as F1.
    assert (NL' : t <> TkLeftParen) by (rewrite E' in NL; exact NL).
    cbn [clean]. split; [intros [_ X]; exact X|]. split; [intros [_ X]; discriminate X|].
    split; [intros (_ & X & _); discriminate X|].
    apply (clean_other w' (TkSymbol v)); [exact NL'|].
    assert (NB : ~ statement_begins (a ++ [(TkSymbol v, px)])).
    { intros B. apply begins_last in B. destruct B as [[B|[B|[B|[]]]]|[[name Z] _]]; try discriminate B. inversion Z. }
    apply (tidy_clean w' (a ++ [(TkSymbol v, px)]) t p rest); [| | |exact F1|].
    - rewrite <- app_assoc, E, E'. reflexivity.
    - intros B. apply begins_last in B. destruct B as [B|[_ B]]; [|exact (NB B)].
      destruct N1 as (N1 & N2 & N3). cbn [fst] in *. destruct B as [B|[B|[B|[]]]]; congruence.
    - intros _ [_ B]. exact (NB B).
    - right. exists a, px. reflexivity. }
  destruct (proj1 (conv eof (fuel ts)) [] [] true ts o rest TkEol TkEol [] H ltac:(intros X; exact X) Logic.I) as (w & Ew & AE & K).
  assert (w = w') by (apply (app_inv_tail rest); congruence). subst w'.
  exists w. split; [exact Ew|]. split; [exact AE|]. destruct (K C) as [_ K2].
  assert (S0 : sound TkEol [] [] true []) by constructor. specialize (K2 S0). destruct o; exact K2.
Qed.


(** * The parts of statements *)

Lemma conv_expect : forall t msg ts p rest, expect eof t msg ts = Ok (p, rest) -> t <> TkEof -> ts = (t, p) :: rest.
Proof.
  intros t msg ts p rest H N1. unfold expect in H. destruct (token_dec (fst (peek ts)) t) as [E|E]; [|discriminate H].
  apply Ok_inj, pair_equal_spec in H. destruct H as [<- <-]. apply peek_cons'; assumption.
Qed.
Lemma conv_expect_at : forall t q msg ts x rest, expect_at eof t q msg ts = Ok (x, rest) -> t <> TkEof ->
  exists p, ts = (t, p) :: rest.
Proof.
  intros t q msg ts x rest H N1. unfold expect_at in H. destruct (token_dec (fst (peek ts)) t) as [E|E]; [|discriminate H].
  apply Ok_inj, pair_equal_spec in H. destruct H as [_ <-]. exists (snd (peek ts)). apply peek_cons'; assumption.
Qed.
Lemma conv_unannotated : forall v p ts name rest, unannotated v p ts = Ok (name, rest) -> v = mkVarRef name None /\ rest = ts.
Proof.
  intros [n [t|]] p ts name rest H; unfold unannotated in H; cbn [vr_type vr_name] in H; [discriminate H|].
  apply Ok_inj, pair_equal_spec in H. destruct H as [<- <-]. auto.
Qed.

Ltac inv H := apply Ok_inj, pair_equal_spec in H; destruct H as [? ?]; subst.
Ltac bind H a ts E := apply and_then_ok in H; destruct H as (a & ts & E & H).
Ltac q := split; [let X := fresh in intros X; exact X|]; repeat split; discriminate.
(** The first token, which is not the end of the file. *)
Ltac first_token P := pose proof (peek_cons _ _ _ P ltac:(discriminate)).

(** What follows an expression that is read up to [rest]. *)
Lemma within_rest : forall x ts w rest, within (x :: ts) -> ts = w ++ rest -> within rest.
Proof. intros x ts w rest W ->. apply within_cons in W. exact (within_app _ _ W). Qed.

Lemma conv_data_values : forall n l ts l' rest, data_values eof n l ts = Ok (l', rest) ->
  exists vs w, ts = w ++ rest /\ l' = l ++ vs /\ data_list vs w.
Proof.
  induction n as [|n IH]; intros l ts l' rest H; [discriminate H|]. cbn [data_values] in H.
  destruct (peek ts) as [tok pos] eqn:P.
  assert (X : forall value wd ts1, datum (Some value) wd -> ts = wd ++ ts1 ->
     (let '(tok, pos) := peek ts1 in
        match tok with
        | TkEof | TkEol | TkElse => Ok (l ++ [Some value], ts1)
        | TkComma => data_values eof n (l ++ [Some value]) (consume ts1)
        | _ => bad_token pos "Expected comma after datum but found {}" tok
        end) = Ok (l', rest) -> exists vs w, ts = w ++ rest /\ l' = l ++ vs /\ data_list vs w).
  { intros value wd ts1 D E1 H1.
    assert (Y : Ok (E:=parse_error) (l ++ [Some value], ts1) = Ok (l', rest) -> exists vs w, ts = w ++ rest /\ l' = l ++ vs /\ data_list vs w).
    { intros Z. inv Z. exists [Some value], wd. split; [reflexivity|]. split; [reflexivity|]. constructor. exact D. }
    destruct (peek ts1) as [tok1 pos1] eqn:P1. destruct tok1; try (discriminate H1); try (apply Y; exact H1).
    apply IH in H1. destruct H1 as (vs & w & E2 & -> & DL). exists (Some value :: vs), (wd ++ (TkComma, pos1) :: w).
    split; [|split].
    - rewrite E1, <- app_assoc. cbn [app]. f_equal. rewrite <- E2. apply peek_cons; [exact P1|discriminate].
    - rewrite <- app_assoc. reflexivity.
    - constructor; assumption. }
  assert (Y : Ok (E:=parse_error) (l ++ [None], ts) = Ok (l', rest) -> exists vs w, ts = w ++ rest /\ l' = l ++ vs /\ data_list vs w).
  { intros Z. inv Z. exists [None], []. split; [reflexivity|]. split; [reflexivity|]. constructor. constructor. }
  destruct tok; try discriminate H; try (apply Y; exact H); first_token P;
    try (eapply X; [|match goal with H0 : ts = (?a, ?b) :: _ |- _ => exact (H0 : ts = [(a, b)] ++ consume ts) end|exact H]; constructor).
  - apply IH in H. destruct H as (vs & w & E2 & -> & DL). exists (None :: vs), ((TkComma, pos) :: w).
    split; [|split].
    + cbn [app]. rewrite <- E2. assumption.
    + rewrite <- app_assoc. reflexivity.
    + apply (dl_more None [] pos); [constructor|exact DL].
  - destruct (peek (consume ts)) as [tok2 pos2] eqn:P2. cbn [fst] in H.
    assert (Z : tok2 <> TkEof -> ts = [(TkMinus, pos); (tok2, pos2)] ++ consume (consume ts)).
    { intros N1. cbn [app]. rewrite <- (peek_cons _ _ _ P2 N1). assumption. }
    destruct tok2; try discriminate H; (eapply X; [|apply Z; discriminate|exact H]; constructor).
Qed.

(** The arguments of commands after the first one. *)
Lemma conv_more_args : forall n x px acc ts args rest, within ((x, px) :: ts) -> quiet x -> acc <> [] ->
  builtin_args eof n None acc ts = Ok (args, rest) ->
  exists l w, ts = w ++ rest /\ args = acc ++ l /\ command_args l w (snd (peek rest)).
Proof.
  induction n as [|n IH]; intros x px acc ts args rest W Q NA H; [discriminate H|]. cbn [builtin_args] in H.
  bind H o ts1 E1. destruct (conv_expr x px ts o ts1 W Q E1) as (w & Ew & AE & M).
  pose proof (within_rest _ _ _ _ W Ew) as W1.
  destruct (peek ts1) as [tok pos] eqn:P.
  assert (L : Ok (E:=parse_error) (match o, acc with None, [] => [] | _, _ => acc ++ [(o, SepEnd, pos)] end, ts1) = Ok (args, rest) ->
     exists l w, ts = w ++ rest /\ args = acc ++ l /\ command_args l w (snd (peek rest))).
  { intros Z. apply Ok_inj, pair_equal_spec in Z. destruct Z as [Z1 Z2]. subst ts1.
    exists [(o, SepEnd, pos)], w. split; [exact Ew|]. split.
    - rewrite <- Z1. destruct o; [reflexivity|]. destruct acc; [congruence|reflexivity].
    - rewrite P. constructor. exact M. }
  assert (R : forall sep, separator sep tok -> tok <> TkEof -> quiet tok -> builtin_args eof n None (acc ++ [(o, sep, pos)]) (consume ts1) = Ok (args, rest) ->
     exists l w, ts = w ++ rest /\ args = acc ++ l /\ command_args l w (snd (peek rest))).
  { intros sep SP NE QT Z. pose proof (peek_cons _ _ _ P NE) as E2.
    destruct (IH tok pos (acc ++ [(o, sep, pos)]) (consume ts1) args rest) as (l & w2 & E3 & -> & CA).
    - rewrite <- E2. exact W1.
    - exact QT.
    - intros Z0. destruct acc; discriminate Z0.
    - exact Z.
    - exists ((o, sep, pos) :: l), (w ++ (tok, pos) :: w2). split; [|split].
      + rewrite Ew, <- app_assoc. f_equal. cbn [app]. rewrite <- E3. exact E2.
      + rewrite <- app_assoc. reflexivity.
      + econstructor; eassumption. }
  destruct tok; try discriminate H; try (apply L; exact H);
    (eapply R; [| | |exact H]; [constructor|discriminate|q]).
Qed.

(** The first call. *)
Lemma conv_builtin_args : forall n w0 first ts args rest, within ts ->
  (forall o ts1, parse_expr eof first ts = Ok (o, ts1) -> exists w, ts = w ++ ts1 /\ maybe o (w0 ++ w)) ->
  builtin_args eof n first [] ts = Ok (args, rest) ->
  exists w, ts = w ++ rest /\
    (args = [] /\ w0 ++ w = [] \/
     command_args args (w0 ++ w) (snd (peek rest)) /\ args <> [(None, SepEnd, snd (peek rest))] /\ args <> []).
Proof.
  intros [|n] w0 first ts args rest W EX H; [discriminate H|]. cbn [builtin_args] in H.
  bind H o ts1 E1. destruct (EX o ts1 E1) as (w & Ew & M).
  assert (W1 : within ts1) by (rewrite Ew in W; exact (within_app _ _ W)).
  destruct (peek ts1) as [tok pos] eqn:P.
  assert (L : Ok (E:=parse_error) (match o with None => [] | _ => [] ++ [(o, SepEnd, pos)] end, ts1) = Ok (args, rest) ->
     exists w, ts = w ++ rest /\ (args = [] /\ w0 ++ w = [] \/
     command_args args (w0 ++ w) (snd (peek rest)) /\ args <> [(None, SepEnd, snd (peek rest))] /\ args <> [])).
  { intros Z. apply Ok_inj, pair_equal_spec in Z. destruct Z as [Z1 Z2]. subst ts1. exists w. split; [exact Ew|].
    destruct o as [e|]; [right|left; split; [symmetry; exact Z1|exact M]]. subst args. cbn [app]. split; [|split; discriminate].
    rewrite P. constructor. exact M. }
  assert (R : forall sep, separator sep tok -> tok <> TkEof -> quiet tok -> builtin_args eof n None ([] ++ [(o, sep, pos)]) (consume ts1) = Ok (args, rest) ->
     exists w, ts = w ++ rest /\ (args = [] /\ w0 ++ w = [] \/
     command_args args (w0 ++ w) (snd (peek rest)) /\ args <> [(None, SepEnd, snd (peek rest))] /\ args <> [])).
  { intros sep SP NE QT Z. pose proof (peek_cons _ _ _ P NE) as E2.
    destruct (conv_more_args n tok pos [(o, sep, pos)] (consume ts1) args rest) as (l & w2 & E3 & -> & CA).
    - rewrite <- E2. exact W1.
    - exact QT.
    - discriminate.
    - exact Z.
    - exists (w ++ (tok, pos) :: w2). split.
      + rewrite Ew, <- app_assoc. f_equal. cbn [app]. rewrite <- E3. exact E2.
      + right. rewrite app_assoc. cbn [app]. split; [econstructor; eassumption|].
        split; [|discriminate]. intros Z0. destruct SP; discriminate Z0. }
  destruct tok; try discriminate H; try (apply L; destruct o; exact H);
    (eapply R; [| | |exact H]; [constructor|discriminate|q]).
Qed.

Lemma exprs_of_subscripts : forall args es, exprs_of args = Ok es -> subscripts args es.
Proof.
  induction args as [|[[[e|] sp] p] args IH]; intros es H; cbn [exprs_of] in H; [inversion H; reflexivity| |discriminate H].
  destruct (exprs_of args) as [l|] eqn:E; [|discriminate H]. apply Ok_inj in H. subst es.
  unfold subscripts in *. cbn [map fst]. rewrite (IH l eq_refl). reflexivity.
Qed.

Lemma conv_builtin_call : forall v p w0 first ts st rest, within ts ->
  (forall o ts1, parse_expr eof first ts = Ok (o, ts1) -> exists w, ts = w ++ ts1 /\ maybe o (w0 ++ w)) ->
  (forall w, ts = w ++ rest -> ~ assigns_element (w0 ++ w)) ->
  parse_builtin_call eof v p first ts = Ok (st, rest) ->
  exists w, ts = w ++ rest /\ simple st ((TkSymbol v, p) :: w0 ++ w) (peek rest).
Proof.
  intros v p w0 first ts st rest W EX NA H. unfold parse_builtin_call in H.
  bind H name ts1 E1. apply conv_unannotated in E1. destruct E1 as [-> ->].
  bind H args ts2 E2. inv H.
  destruct (conv_builtin_args _ w0 first ts args rest W EX E2) as (w & Ew & C). exists w. split; [exact Ew|].
  destruct C as [[-> Z]|(CA & N1 & N2)].
  - rewrite Z. constructor.
  - apply si_command_args; [exact CA|exact N1|]. apply NA. exact Ew.
Qed.

Lemma conv_symbol : forall v p ts st rest, within ((TkSymbol v, p) :: ts) -> parse_symbol eof v p ts = Ok (st, rest) ->
  exists w, ts = w ++ rest /\ simple st ((TkSymbol v, p) :: w) (peek rest).
Proof.
  intros v p ts st rest W H. unfold parse_symbol in H. pose proof (within_cons _ _ W) as W1.
  destruct (peek ts) as [tok pos] eqn:P. cbn [fst] in H.
  assert (X : tok <> TkEqual -> parse_array_or_builtin_call eof v p ts = Ok (st, rest) ->
    exists w, ts = w ++ rest /\ simple st ((TkSymbol v, p) :: w) (peek rest)).
  { clear H. intros N1 H. unfold parse_array_or_builtin_call in H. rewrite P in H.
    assert (Y : tok <> TkLeftParen -> parse_builtin_call eof v p None ts = Ok (st, rest) ->
      exists w, ts = w ++ rest /\ simple st ((TkSymbol v, p) :: w) (peek rest)).
    { clear H. intros N2 H. apply (conv_builtin_call v p [] None ts st rest W1) in H; [exact H| |].
      - intros o ts1 E. destruct (conv_command_expr v p ts o ts1 W) as (w & Ew & _ & M); [rewrite P; exact N2|exact E|].
        exists w. auto.
      - intros w Ew (q0 & e & we & q1 & r & w' & _ & Z). cbn [app] in Z. apply N2.
        rewrite Ew, Z in P. cbn in P. congruence. }
    destruct tok; try (apply Y; [discriminate|exact H]). clear Y.
    first_token P. rename H0 into E0.
    bind H a ts1 E1. destruct (exprs_of a) as [es|] eqn:EX; [|discriminate H].
    pose proof (exprs_of_subscripts a es EX) as SB.
    assert (W2 : within ((TkLeftParen, pos) :: consume ts)) by (rewrite <- E0; exact W1).
    destruct (conv_args pos (consume ts) a ts1 W2 E1) as (wa & Ea & WA).
    pose proof (within_rest _ _ _ _ W2 Ea) as W3.
    assert (Y : fst (peek ts1) <> TkEqual -> match es with
              | [e] => parse_builtin_call eof v p (Some e) ts1
              | _ => bad pos "Expected expression"%string
              end = Ok (st, rest) -> exists w, ts = w ++ rest /\ simple st ((TkSymbol v, p) :: w) (peek rest)).
    { clear H. intros N2 H. destruct es as [|e [|e2 es]]; try discriminate H.
      assert (F : exists we q, wa = we ++ [(TkRightParen, q)] /\ writing e we).
      { destruct WA as [q|a wa WS]; [discriminate SB|]. destruct WS as [e' we h t q WE|e' we h t q a' wa' WE WS].
        - unfold subscripts in SB. cbn [map fst] in SB. assert (e' = e) by congruence. subst e'.
          exists we, q. split; [reflexivity|]. exists h, t. exact WE.
        - unfold subscripts in SB. cbn [map fst] in SB. assert (SB' : map (fun a : argspan => fst (fst a)) a' = []) by congruence.
          destruct WS; discriminate SB'. }
      destruct F as (we & q & -> & WE). rewrite <- app_assoc in Ea. cbn [app] in Ea.
      apply (conv_builtin_call v p ((TkLeftParen, pos) :: we ++ [(TkRightParen, q)]) (Some e) ts1 st rest W3) in H.
      - destruct H as (w & Ew & SI). exists (((TkLeftParen, pos) :: we ++ [(TkRightParen, q)]) ++ w). split; [|exact SI].
        rewrite E0, Ea, Ew. cbn [app]. rewrite <- !app_assoc. reflexivity.
      - intros o ts2 E2.
        destruct (conv_first pos we q ts1 e o ts2) as (w & Ew & _ & e' & -> & WE'); [|exact WE|exact E2|].
        + rewrite <- Ea. exact W2.
        + exists w. split; [exact Ew|]. cbn [app maybe]. rewrite <- app_assoc. exact WE'.
      - intros w Ew (q0 & e' & we' & q1 & r & w' & (h & t & WE') & Z). cbn [app] in Z. rewrite <- app_assoc in Z. cbn [app] in Z.
        assert (Z' : we ++ (TkRightParen, q) :: w = we' ++ (TkRightParen, q1) :: (TkEqual, r) :: w') by congruence.
        rewrite Ew in Ea. assert (Ea' : consume ts = (we' ++ [(TkRightParen, q1)]) ++ (TkEqual, r) :: w' ++ rest).
        { rewrite Ea. rewrite <- app_assoc. cbn [app]. change ((TkRightParen, q1) :: (TkEqual, r) :: w' ++ rest) with (((TkRightParen, q1) :: (TkEqual, r) :: w') ++ rest).
          change ((TkRightParen, q) :: w ++ rest) with (((TkRightParen, q) :: w) ++ rest). rewrite !app_assoc. f_equal. exact Z'. }
        pose proof (parse_args_writing eof [(Some e', SepEnd, q1)] (we' ++ [(TkRightParen, q1)]) ((TkEqual, r) :: w' ++ rest)
          (wa_some _ _ (ws_last e' we' h t q1 WE'))) as PA.
        rewrite <- Ea', E1 in PA. apply Ok_inj, pair_equal_spec in PA. destruct PA as [_ PA]. apply N2. rewrite PA. reflexivity. }
    destruct (peek ts1) as [tok1 pos1] eqn:P1. cbn [fst] in *.
    destruct tok1; try (apply Y; [discriminate|exact H]). clear Y.
    first_token P1. rename H0 into E2. unfold parse_array_assignment in H. bind H e ts2 E3.
    destruct (ends_stmt (fst (peek ts2))); [|discriminate H]. inv H.
    apply (conv_required TkEqual pos1) in E3; [|rewrite <- E2; exact W3|q]. destruct E3 as (w & Ew & _ & WR).
    exists ((TkLeftParen, pos) :: wa ++ (TkEqual, pos1) :: w). split.
    - rewrite E0, Ea. cbn [app]. f_equal. rewrite <- app_assoc. f_equal. cbn [app]. rewrite <- Ew. exact E2.
    - econstructor; eassumption. }
  destruct tok; try (apply X; [discriminate|exact H]). clear X.
  first_token P. rename H0 into E0. unfold parse_assignment in H. bind H e ts2 E3.
  destruct (ends_stmt (fst (peek ts2))); [|discriminate H]. inv H.
  apply (conv_required TkEqual pos) in E3; [|rewrite <- E0; exact W1|q]. destruct E3 as (w & Ew & _ & WR).
  exists ((TkEqual, pos) :: w). split; [cbn [app]; rewrite <- Ew; exact E0|constructor; exact WR].
Qed.

(** The END statement. *)
Lemma conv_maybe_end : forall pos ts r rest, within ((TkEnd, pos) :: ts) -> maybe_parse_end eof pos ts = Ok (r, rest) ->
  (exists o w, r = inl (StEnd o pos) /\ ts = w ++ rest /\ at_end rest /\ maybe o w) \/
  (r = inr (fst (peek ts)) /\ rest = ts /\ In (fst (peek ts)) [TkFunction; TkIf; TkSelect; TkSub]).
Proof.
  intros pos ts r rest W H. unfold maybe_parse_end in H.
  assert (X : (get code, ts <- parse_expr eof None ts; Ok (inl (B:=token) (StEnd code pos), ts)) = Ok (r, rest) ->
    exists o w, r = inl (StEnd o pos) /\ ts = w ++ rest /\ at_end rest /\ maybe o w).
  { clear H. intros H. bind H o ts1 E1. inv H. destruct (conv_expr TkEnd pos ts o rest W ltac:(q) E1) as (w & Ew & AE & M).
    exists o, w. auto. }
  destruct (fst (peek ts)); try (left; apply X; exact H); right; inv H; cbn; tauto.
Qed.

(** The statements that can be in a one-line IF. *)
Definition is_simple (t : token) : Prop :=
  match t with
  | TkData | TkEnd | TkExit | TkGosub | TkGoto | TkOn | TkReturn | TkSymbol _ => True
  | _ => False
  end.
Lemma conv_simple : forall one tok pos ts st rest, is_simple tok -> within ((tok, pos) :: ts) ->
  parse_keyword eof one tok pos ts = Ok (st, rest) ->
  exists w, ts = w ++ rest /\ simple st ((tok, pos) :: w) (peek rest).
Proof.
  intros one tok pos ts st rest IS W H. destruct tok; try destruct IS; cbn [parse_keyword] in H.
  - (* name *)
    exact (conv_symbol v pos ts st rest W H).
  - (* DATA *)
    unfold parse_data in H. bind H l ts1 E1. inv H. apply conv_data_values in E1. destruct E1 as (vs & w & E & Z & D).
    cbn [app] in Z. subst l. exists w. split; [exact E|constructor; exact D].
  - (* END *)
    unfold parse_end in H. bind H r ts1 E1. destruct r as [st'|t]; [|discriminate H]. inv H.
    destruct (conv_maybe_end pos ts _ _ W E1) as [(o & w & Z & E & _ & M)|(Z & _)]; [|discriminate Z].
    inversion Z; subst. exists w. split; [reflexivity|constructor; exact M].
  - (* EXIT *)
    unfold parse_exit in H. destruct (peek ts) as [t p] eqn:P. cbn [fst snd] in H.
    destruct t; try discriminate H; first_token P; inv H; (eexists [_]; split; [cbn [app]; eassumption|constructor]).
  - (* GOSUB *)
    unfold parse_gosub in H. destruct (peek ts) as [t p] eqn:P.
    destruct t; try discriminate H; first_token P; inv H; (eexists [_]; split; [cbn [app]; eassumption|constructor; constructor]).
  - (* GOTO *)
    unfold parse_goto in H. destruct (peek ts) as [t p] eqn:P.
    destruct t; try discriminate H; first_token P; inv H; (eexists [_]; split; [cbn [app]; eassumption|constructor; constructor]).
  - (* ON ERROR *)
    unfold parse_on in H. bind H q0 ts1 E1. apply conv_expect in E1; [|discriminate]. subst ts.
    destruct (peek ts1) as [t p] eqn:P. destruct t; try discriminate H; first_token P; rename H0 into E2.
    + destruct (peek (consume ts1)) as [t2 p2] eqn:P2.
      assert (E3 : t2 <> TkEof -> (TkError, q0) :: ts1 = [(TkError, q0); (TkGoto, p); (t2, p2)] ++ consume (consume ts1)).
      { intros N1. cbn [app]. rewrite <- (peek_cons _ _ _ P2 N1), <- E2. reflexivity. }
      destruct t2; try discriminate H.
      * specialize (E3 ltac:(discriminate)). destruct z; inv H; (eexists; split; [exact E3|]).
        -- constructor.
        -- apply si_on_goto; [constructor|discriminate].
        -- apply si_on_goto; [constructor|discriminate].
      * specialize (E3 ltac:(discriminate)). inv H. eexists. split; [exact E3|]. apply si_on_goto; [constructor|discriminate].
    + bind H q1 ts2 E3. apply conv_expect in E3; [|discriminate]. inv H.
      eexists [_; _; _]. split; [cbn [app]; rewrite E2, E3; reflexivity|constructor].
  - (* RETURN *)
    inv H. exists []. split; [reflexivity|constructor].
Qed.

Lemma conv_uniline : forall ts o rest, within ts -> parse_uniline eof ts = Ok (o, rest) ->
  (exists st w, o = Some st /\ ts = w ++ rest /\ simple st w (peek rest)) \/
  (o = None /\ ts = [] /\ rest = []) \/ (o = None /\ exists p, ts = (TkEol, p) :: rest).
Proof.
  intros ts o rest W H. unfold parse_uniline in H. destruct (peek ts) as [tok pos] eqn:P. cbv zeta in H.
  assert (X : is_simple tok -> (get st, ts <- parse_keyword eof (parse_one eof 0) tok pos (consume ts); Ok (Some st, ts)) = Ok (o, rest) ->
    exists st w, o = Some st /\ ts = w ++ rest /\ simple st w (peek rest)).
  { clear H. intros IS H. assert (E : ts = (tok, pos) :: consume ts) by (apply peek_cons; [exact P|intros ->; exact IS]).
    bind H s1 ts1 E1. inv H.
    apply conv_simple in E1; [|exact IS|rewrite <- E; exact W]. destruct E1 as (w & Ew & SI).
    exists s1, ((tok, pos) :: w). split; [reflexivity|]. split; [cbn [app]; rewrite <- Ew; exact E|exact SI]. }
  destruct tok; try discriminate H; try (left; apply X; [exact Logic.I|exact H]).
  - right. left. apply (within_eof ts W) in P as E || (assert (E : ts = []) by (apply within_eof; [exact W|rewrite P; reflexivity])).
    subst ts. inv H. auto.
  - right. right. first_token P. inv H. split; [reflexivity|]. exists pos. assumption.
Qed.


Ltac lst := norm; cbn [app]; repeat (rewrite <- app_assoc; cbn [app]); norm; congruence.

Lemma conv_as_type : forall ts t rest, parse_as_type eof ts = Ok (t, rest) -> exists tk p, ts = (tk, p) :: rest /\ names_type tk t.
Proof.
  intros ts t rest H. unfold parse_as_type in H. destruct (peek ts) as [tok pos] eqn:P.
  destruct tok; try discriminate H; first_token P; inv H; (do 2 eexists; split; [eassumption|constructor]).
Qed.
Lemma conv_dim_as : forall ts t rest, parse_dim_as eof ts = Ok (t, rest) -> exists w, ts = w ++ rest /\ dim_type t w.
Proof.
  intros ts t rest H. unfold parse_dim_as in H. destruct (peek ts) as [tok pos] eqn:P.
  bind H t1 ts1 E1. destruct (ends_line _); [|discriminate H]. inv H.
  destruct tok; try discriminate E1.
  - inv E1. exists []. split; [reflexivity|constructor].
  - inv E1. exists []. split; [reflexivity|constructor].
  - first_token P. apply conv_as_type in E1. destruct E1 as (tk & p & E & NT).
    exists [(TkAs, pos); (tk, p)]. split; [lst|constructor; exact NT].
Qed.

Lemma conv_dim : forall p ts s1 rest, within ((TkDim, p) :: ts) -> parse_dim eof ts = Ok (s1, rest) ->
  exists w, ts = w ++ rest /\ statement s1 ((TkDim, p) :: w) (peek rest).
Proof.
  intros p ts s1 rest W H. unfold parse_dim in H.
  assert (X : forall sh ws ts1, dim_scope sh ws -> ts = ws ++ ts1 ->
   (let '(tok, pos) := peek ts1 in
    match tok with
    | TkSymbol v =>
        get name, ts <- unannotated v pos (consume ts1);
        let '(tok2, pos2) := peek ts in
        match tok2 with
        | TkLeftParen =>
            get dims, ts <- parse_comma_separated_exprs eof (consume ts);
            match dims with
            | [] => bad pos2 "Arrays require at least one dimension"
            | _ =>
                get t, ts <- parse_dim_as eof ts;
                match exprs_of dims with
                | Ok es => Ok (StDimArray name pos sh es t, ts)
                | Err x => Err x
                end
            end
        | _ => get t, ts <- parse_dim_as eof ts; Ok (StDim name pos sh t, ts)
        end
    | _ => bad pos "Expected variable name after DIM"
    end) = Ok (s1, rest) -> exists w, ts = w ++ rest /\ statement s1 ((TkDim, p) :: w) (peek rest)).
  { clear H. intros sh ws ts1 DS E H. destruct (peek ts1) as [tok pos] eqn:P. destruct tok; try discriminate H.
    first_token P. bind H name ts2 E1. apply conv_unannotated in E1. destruct E1 as [-> ->].
    destruct (peek (consume ts1)) as [tok2 pos2] eqn:P2.
    assert (Y : (get t, ts <- parse_dim_as eof (consume ts1); Ok (StDim name pos sh t, ts)) = Ok (s1, rest) ->
      exists w, ts = w ++ rest /\ statement s1 ((TkDim, p) :: w) (peek rest)).
    { clear H. intros H. bind H t ts3 E3. inv H. apply conv_dim_as in E3. destruct E3 as (wt & E3 & DT).
      exists (ws ++ (TkSymbol (mkVarRef name None), pos) :: wt). split; [|econstructor; eassumption].
      lst. }
    destruct tok2; try (apply Y; exact H). clear Y. first_token P2. rename H1 into E2.
    bind H dims ts3 E3.
    apply conv_args with (px := pos2) in E3.
    2:{ rewrite <- E2. subst ts. apply within_cons, within_app in W. rewrite H0 in W. exact (within_cons _ _ W). }
    destruct E3 as (wa & Ea & WA).
    assert (ND : dims <> []) by (intros ->; discriminate H).
    assert (H1 : (get t, ts <- parse_dim_as eof ts3;
                match exprs_of dims with
                | Ok es => Ok (StDimArray name pos sh es t, ts)
                | Err x => Err x
                end) = Ok (s1, rest)) by (destruct dims; [congruence|exact H]).
    clear H. bind H1 t ts4 E4. destruct (exprs_of dims) as [es|] eqn:EX; [|discriminate H1]. inv H1.
    apply conv_dim_as in E4. destruct E4 as (wt & E4 & DT).
    exists (ws ++ (TkSymbol (mkVarRef name None), pos) :: (TkLeftParen, pos2) :: wa ++ wt). split.
    - lst.
    - apply exprs_of_subscripts in EX. eapply st_dim_array; try eassumption. intros ->. destruct dims; [congruence|discriminate EX]. }
  destruct (peek ts) as [tok pos] eqn:P. cbn [fst] in H.
  destruct tok; try (apply (X false [] ts); [constructor|reflexivity|rewrite P in *; exact H]).
  first_token P. apply (X true [(TkShared, pos)] (consume ts)); [constructor|exact H0|exact H].
Qed.

Lemma conv_do_guard : forall x px part ts g rest, within ((x, px) :: ts) -> parse_do_guard eof part ts = Ok (g, rest) ->
  exists w g', ts = w ++ rest /\ g = swap g' /\ guard g' w.
Proof.
  intros x px part ts g rest W H. unfold parse_do_guard in H. destruct (peek ts) as [tok pos] eqn:P.
  apply within_cons in W.
  destruct tok; try discriminate H; try (inv H; exists [], None; split; [reflexivity|split; [reflexivity|constructor]]);
    first_token P; rename H0 into E0; (bind H e ts1 E1; inv H).
  - apply (conv_required TkUntil pos) in E1; [|rewrite <- E0; exact W|q]. destruct E1 as (w & Ew & _ & WR).
    exists ((TkUntil, pos) :: w), (Some (true, e)). split; [lst|]. split; [reflexivity|constructor; exact WR].
  - apply (conv_required TkWhile pos) in E1; [|rewrite <- E0; exact W|q]. destruct E1 as (w & Ew & _ & WR).
    exists ((TkWhile, pos) :: w), (Some (false, e)). split; [lst|]. split; [reflexivity|constructor; exact WR].
Qed.

Lemma conv_step : forall p ts e sign dbl rest, parse_step eof p ts = Ok ((e, sign, dbl), rest) -> sign <> Eq ->
  exists w up, ts = w ++ rest /\ step p e up dbl w /\ sign = (if up : bool then Gt else Lt).
Proof.
  intros p ts e sign dbl rest H NE. unfold parse_step in H. destruct (peek ts) as [tok pos] eqn:P. cbn [fst] in H.
  assert (X : Ok (E:=parse_error) ((EInteger 1 p, Gt, false), ts) = Ok ((e, sign, dbl), rest) ->
    exists w up, ts = w ++ rest /\ step p e up dbl w /\ sign = (if up : bool then Gt else Lt)).
  { intros Z. apply Ok_inj, pair_equal_spec in Z. destruct Z as [Z <-]. apply pair_equal_spec in Z. destruct Z as [Z <-].
    apply pair_equal_spec in Z. destruct Z as [<- <-]. exists [], true. split; [reflexivity|]. split; [constructor|reflexivity]. }
  destruct tok; try (apply X; exact H). clear X. first_token P. rename H0 into E0.
  assert (ZS : forall z, (z ?= 0)%Z <> Eq -> z <> 0%Z /\ (z ?= 0)%Z = if (0 <? z)%Z then Gt else Lt).
  { intros z N1. split; [intros ->; apply N1; reflexivity|]. destruct (Z.compare_spec z 0); destruct (Z.ltb_spec 0 z); try reflexivity; try lia.
    exfalso. apply N1. reflexivity. }
  assert (FS : forall d c, (if f64_eq d 0 then Eq else c) = sign -> f64_eq d 0 = false /\ sign = c).
  { intros d c Z. destruct (f64_eq d 0); [congruence|auto]. }
  destruct (peek (consume ts)) as [tok2 pos2] eqn:P2.
  assert (E2 : tok2 <> TkEof -> ts = [(TkStep, pos); (tok2, pos2)] ++ consume (consume ts)).
  { intros N1. cbn [app]. rewrite <- (peek_cons _ _ _ P2 N1). exact E0. }
  destruct tok2; try discriminate H.
  - specialize (E2 ltac:(discriminate)). apply Ok_inj, pair_equal_spec in H. destruct H as [Z <-]. apply pair_equal_spec in Z. destruct Z as [Z <-].
    apply pair_equal_spec in Z. destruct Z as [<- Z]. destruct (FS _ _ Z) as [F ->].
    eexists [(TkStep, pos); (TkDouble _, pos2)], true. split; [exact E2|]. split; [constructor; exact F|reflexivity].
  - specialize (E2 ltac:(discriminate)). apply Ok_inj, pair_equal_spec in H. destruct H as [Z <-]. apply pair_equal_spec in Z. destruct Z as [Z <-].
    apply pair_equal_spec in Z. destruct Z as [<- Z]. subst sign. destruct (ZS _ NE) as [F G].
    eexists [(TkStep, pos); (TkInteger _, pos2)], _. split; [exact E2|]. split; [constructor; exact F|exact G].
  - specialize (E2 ltac:(discriminate)). destruct (peek (consume (consume ts))) as [tok3 pos3] eqn:P3.
    assert (E3 : tok3 <> TkEof -> ts = [(TkStep, pos); (TkMinus, pos2); (tok3, pos3)] ++ consume (consume (consume ts))).
    { intros N1. etransitivity; [exact E2|]. cbn [app]. do 2 f_equal. exact (peek_cons _ _ _ P3 N1). }
    destruct tok3; try discriminate H; specialize (E3 ltac:(discriminate)).
    + apply Ok_inj, pair_equal_spec in H. destruct H as [Z <-]. apply pair_equal_spec in Z. destruct Z as [Z <-].
      apply pair_equal_spec in Z. destruct Z as [<- Z]. destruct (FS _ _ Z) as [F ->].
      eexists [(TkStep, pos); (TkMinus, pos2); (TkDouble _, pos3)], false. split; [exact E3|]. split; [constructor; exact F|reflexivity].
    + apply Ok_inj, pair_equal_spec in H. destruct H as [Z <-]. apply pair_equal_spec in Z. destruct Z as [Z <-].
      apply pair_equal_spec in Z. destruct Z as [<- Z]. subst sign. destruct (ZS _ NE) as [F G].
      eexists [(TkStep, pos); (TkMinus, pos2); (TkInteger _, pos3)], _. split; [exact E3|]. split; [constructor; exact F|exact G].
Qed.

Lemma conv_params : forall n acc ts l rest, callable_params eof n acc ts = Ok (l, rest) ->
  exists ps w, ts = w ++ rest /\ l = acc ++ ps /\ param_list ps w.
Proof.
  induction n as [|n IH]; intros acc ts l rest H; [discriminate H|]. cbn [callable_params] in H.
  destruct (peek ts) as [tok pos] eqn:P. destruct tok; try discriminate H. first_token P. rename H0 into E0.
  bind H v1 ts1 E1.
  assert (X : exists wp, ts = wp ++ ts1 /\ param v1 wp).
  { destruct (peek (consume ts)) as [tok2 pos2] eqn:P2. cbn [fst] in E1.
    assert (Y : Ok (E:=parse_error) (v, consume ts) = Ok (v1, ts1) -> exists wp, ts = wp ++ ts1 /\ param v1 wp).
    { intros Z. inv Z. exists [(TkSymbol v1, pos)]. split; [exact E0|constructor]. }
    destruct tok2; try (apply Y; exact E1). clear Y. first_token P2. rename H0 into E2.
    bind E1 name ts2 E3. apply conv_unannotated in E3. destruct E3 as [-> ->].
    bind E1 t ts3 E4. inv E1. apply conv_as_type in E4. destruct E4 as (tk & r & E4 & NT).
    exists [(TkSymbol (mkVarRef name None), pos); (TkAs, pos2); (tk, r)]. split; [|constructor; exact NT].
    lst. }
  destruct X as (wp & Ew & PA). destruct (peek ts1) as [tok2 pos2] eqn:P2. cbn [fst snd] in H.
  destruct tok2; try discriminate H; first_token P2; rename H0 into E2.
  - apply IH in H. destruct H as (ps & w & E3 & -> & PL). exists (v1 :: ps), (wp ++ (TkComma, pos2) :: w). split; [|split].
    + lst.
    + rewrite <- app_assoc. reflexivity.
    + constructor; assumption.
  - inv H. exists [v1], (wp ++ [(TkRightParen, pos2)]). split; [|split].
    + rewrite <- app_assoc. f_equal. exact E2.
    + reflexivity.
    + constructor. exact PA.
Qed.
Lemma conv_callable_args : forall ts l rest, parse_callable_args eof ts = Ok (l, rest) -> exists w, ts = w ++ rest /\ params l w.
Proof.
  intros ts l rest H. unfold parse_callable_args in H. destruct (peek ts) as [tok pos] eqn:P. cbn [fst] in H.
  destruct tok; try (inv H; exists []; split; [reflexivity|constructor]).
  first_token P. rename H0 into E0. apply conv_params in H. destruct H as (ps & w & E & -> & PL).
  exists ((TkLeftParen, pos) :: w). split; [lst|constructor; exact PL].
Qed.
Lemma conv_signature : forall d (f : bool) ts name np l rest,
  parse_callable_signature eof d f ts = Ok ((name, np, l), rest) ->
  exists w, ts = w ++ rest /\ signature (if f then TkFunction else TkSub) name np l w /\
    (fst (peek rest) = TkEol \/ d = true /\ fst (peek rest) = TkEof).
Proof.
  intros d f ts name np l rest H. unfold parse_callable_signature in H. destruct (peek ts) as [tok pos] eqn:P.
  bind H v1 ts1 E1. bind H ps ts2 E2. cbv zeta in H.
  destruct (match fst (peek ts2) with TkEol => true | TkEof => d | _ => false end) eqn:ST; [|discriminate H].
  apply Ok_inj, pair_equal_spec in H. destruct H as [Z <-]. apply pair_equal_spec in Z. destruct Z as [Z <-].
  apply pair_equal_spec in Z. destruct Z as [<- <-].
  apply conv_callable_args in E2. destruct E2 as (w & Ew & PS).
  destruct tok; try discriminate E1. first_token P. rename H into E0.
  exists ((TkSymbol v, pos) :: w). split; [|split].
  - cbn [app]. rewrite <- Ew. destruct (vr_type v), f; try discriminate E1; inv E1; exact E0.
  - destruct v as [vn [vt|]], f; cbn [vr_type vr_name] in E1; try discriminate E1; inv E1.
    + exact (sg_function (mkVarRef vn (Some vt)) pos ps w PS).
    + exact (sg_function (mkVarRef vn None) pos ps w PS).
    + exact (sg_sub vn pos ps w PS).
  - destruct (fst (peek ts2)); try discriminate ST; auto.
Qed.
Lemma conv_declare : forall p ts s1 rest, parse_declare eof ts = Ok (s1, rest) ->
  exists w, ts = w ++ rest /\ statement s1 ((TkDeclare, p) :: w) (peek rest).
Proof.
  intros p ts s1 rest H. unfold parse_declare in H. destruct (peek ts) as [tok pos] eqn:P.
  bind H s2 ts1 E1. destruct s2 as [[name np] l]. inv H.
  assert (X : exists f : bool, tok = (if f then TkFunction else TkSub) /\
    parse_callable_signature eof true f (consume ts) = Ok ((name, np, l), rest)).
  { destruct tok; try discriminate E1; [exists true|exists false]; auto. }
  destruct X as (f & T & E2). clear E1. apply conv_signature in E2. destruct E2 as (w & Ew & SG & _).
  assert (E0 : ts = (tok, pos) :: consume ts) by (apply peek_cons; [exact P|subst tok; destruct f; discriminate]).
  exists ((tok, pos) :: w). split; [lst|]. subst tok. apply st_declare. exact SG.
Qed.

(** * CASE *)

Lemma conv_case_value : forall x px ts g rest, within ((x, px) :: ts) -> quiet x -> case_value eof ts = Ok (g, rest) ->
  exists w, ts = w ++ rest /\ case_test g w.
Proof.
  intros x px ts g rest W Q H. unfold case_value in H. bind H e1 ts1 E1.
  apply (conv_required x px) in E1; [|exact W|exact Q]. destruct E1 as (w1 & Ew1 & _ & W1).
  destruct (peek ts1) as [tok pos] eqn:P. cbn [fst snd] in H.
  assert (X : Ok (E:=parse_error) (CIs REqual e1, ts1) = Ok (g, rest) -> exists w, ts = w ++ rest /\ case_test g w).
  { intros Z. inv Z. exists w1. split; [reflexivity|constructor; exact W1]. }
  destruct tok; try discriminate H; try (apply X; exact H). first_token P. rename H0 into E0.
  bind H e2 ts2 E2. inv H. apply (conv_required TkTo pos) in E2; [| |q].
  - destruct E2 as (w2 & Ew2 & _ & W2). exists (w1 ++ (TkTo, pos) :: w2). split; [|constructor; assumption].
    lst.
  - rewrite <- E0. apply within_cons in W. exact (within_app _ _ W).
Qed.
Lemma relop_of_some : forall t o, relop_of t = Some o -> relop o t /\ quiet t.
Proof. intros t o H. destruct t; try discriminate H; inversion H; subst; (split; [constructor|q]). Qed.
Lemma conv_case_is : forall ts g rest, within ts -> case_is eof ts = Ok (g, rest) ->
  exists o t p e w, ts = (t, p) :: w ++ rest /\ relop o t /\ writing e w /\ g = CIs o e.
Proof.
  intros ts g rest W H. unfold case_is in H. destruct (peek ts) as [tok pos] eqn:P. cbn [fst snd] in H.
  destruct (relop_of tok) as [o|] eqn:R; [|discriminate H]. bind H e ts1 E1. inv H.
  apply relop_of_some in R. destruct R as [R Q].
  assert (E0 : ts = (tok, pos) :: consume ts) by (apply peek_cons; [exact P|intros ->; inversion R]).
  apply (conv_required tok pos) in E1; [|rewrite <- E0; exact W|exact Q]. destruct E1 as (w & Ew & _ & WR).
  exists o, tok, pos, e, w. split; [rewrite <- Ew; exact E0|auto].
Qed.

Lemma conv_case_guards : forall n x px acc ts gs rest, within ((x, px) :: ts) -> quiet x ->
  case_guards eof n acc ts = Ok (gs, rest) ->
  (acc = [] /\ gs = [] /\ exists p, ts = (TkElse, p) :: rest) \/
  (fst (peek rest) = TkEol /\ exists l w, ts = w ++ rest /\ gs = acc ++ l /\ case_tests l w).
Proof.
  induction n as [|n IH]; intros x px acc ts gs rest W Q H; [discriminate H|]. cbn [case_guards] in H.
  pose proof (within_cons _ _ W) as W1.
  assert (NX : forall g w ts1, ts = w ++ ts1 -> case_test g w -> case_next eof (case_guards eof n) (acc ++ [g]) ts1 = Ok (gs, rest) ->
    fst (peek rest) = TkEol /\ exists l w, ts = w ++ rest /\ gs = acc ++ l /\ case_tests l w).
  { clear H. intros g w ts1 E CT H. unfold case_next in H. destruct (peek ts1) as [tok pos] eqn:P. cbn [fst snd] in H.
    destruct tok; try discriminate H.
    - inv H. rewrite P. split; [reflexivity|]. exists [g], w. split; [reflexivity|]. split; [reflexivity|constructor; exact CT].
    - first_token P. rename H0 into E0. apply (IH TkComma pos) in H; [| |q].
      + destruct H as [(Z & _)|(PE & l & wl & El & -> & CL)]; [destruct acc; discriminate Z|]. split; [exact PE|].
        exists (g :: l), (w ++ (TkComma, pos) :: wl). split; [|split].
        * lst.
        * rewrite <- app_assoc. reflexivity.
        * constructor; assumption.
      + rewrite <- E0. rewrite E in W1. exact (within_app _ _ W1). }
  destruct (peek ts) as [tok pos] eqn:P. cbn [fst snd] in H.
  assert (V : (get g, ts <- case_value eof ts; case_next eof (case_guards eof n) (acc ++ [g]) ts) = Ok (gs, rest) ->
    fst (peek rest) = TkEol /\ exists l w, ts = w ++ rest /\ gs = acc ++ l /\ case_tests l w).
  { clear H. intros H. bind H g ts1 E1. apply (conv_case_value x px) in E1; [|exact W|exact Q]. destruct E1 as (w & Ew & CT).
    eapply NX; eassumption. }
  destruct tok; try (right; apply V; exact H).
  - first_token P. rename H0 into E0. destruct acc; [|discriminate H]. cbv zeta in H.
    destruct (ends_line _); [|discriminate H]. inv H. left. split; [reflexivity|]. split; [reflexivity|]. exists pos. exact E0.
  - first_token P. rename H0 into E0. right. bind H g ts1 E1. apply conv_case_is in E1.
    + destruct E1 as (o & t & p & e & w & Ew & R & WR & ->).
      apply (NX (CIs o e) ((TkIs, pos) :: (t, p) :: w) ts1); [|constructor; assumption|exact H].
      lst.
    + rewrite E0 in W1. exact (within_cons _ _ W1).
Qed.


(** * Lines *)

Lemma lines_app : forall l1 w1, lines l1 w1 -> forall l2 w2, lines l2 w2 -> lines (l1 ++ l2) (w1 ++ w2).
Proof.
  induction 1 as [|p l w LB IH|t name p l w NL LB IH|s1 w p l wl ST LB IH]; intros l2 w2 L2; cbn [app].
  - exact L2.
  - constructor. apply IH. exact L2.
  - constructor; [exact NL|]. apply IH. exact L2.
  - rewrite <- app_assoc. cbn [app]. constructor; [exact ST|]. apply IH. exact L2.
Qed.
Lemma eols_lines : forall es, eols es -> lines [] es.
Proof.
  induction 1 as [|[t p] es E F IH]; [constructor|]. cbn [fst] in E. subst t. constructor. exact IH.
Qed.
Lemma lines_eols : forall es l w, eols es -> lines l w -> lines l (es ++ w).
Proof. intros es l w E L. exact (lines_app [] es (eols_lines es E) l w L). Qed.
Lemma bb_app : forall l1 w1, lines l1 w1 -> forall l2 w2 next, branch_body l2 w2 next -> branch_body (l1 ++ l2) (w1 ++ w2) next.
Proof.
  intros l1 w1 L1 l2 w2 next B. destruct B as [b w next L|b w o we p q0 next L M].
  - apply bb_lines. apply lines_app; assumption.
  - rewrite !app_assoc. apply bb_end; [|exact M]. apply lines_app; assumption.
Qed.

Lemma ends_token : forall t, ends t -> t = TkEof \/ t = TkEol \/ t = TkAs \/ t = TkComma \/ t = TkElse \/ t = TkSemicolon \/
  t = TkThen \/ t = TkTo \/ t = TkStep \/ t = TkRightParen.
Proof. intros t H. unfold ends in H. cbn [In] in H. intuition congruence. Qed.
Lemma lines_first : forall l w t p w', lines l w -> w = (t, p) :: w' -> ends t -> t = TkEol /\ lines l w'.
Proof.
  intros l w t p w' L E EN. destruct L as [|p0 l w L|t0 name p0 l w NL L|s1 w p0 l wl ST L].
  - discriminate E.
  - assert (t = TkEol /\ w = w') as [-> ->] by (split; congruence). auto.
  - exfalso. assert (t0 = t) by congruence. subst t0. apply ends_token in EN.
    destruct NL; repeat (destruct EN as [EN|EN]; [discriminate EN|]); discriminate EN.
  - exfalso. destruct (statement_start _ _ _ ST) as (tok & pos & w2 & -> & SS & _). cbn [app] in E.
    assert (tok = t) by congruence. subst tok. apply ends_token in EN.
    repeat (destruct EN as [EN|EN]; [subst t; exact SS|]). subst t. exact SS.
Qed.
Lemma lines_nil : forall l, lines l [] -> l = [].
Proof.
  intros l L. remember [] as w eqn:E. destruct L as [|p0 l w L|t0 name p0 l w NL L|s1 w p0 l wl ST L]; try discriminate E; [reflexivity|].
  destruct w; discriminate E.
Qed.

(** What the parser of one statement gives. *)
Definition one_conv (one : toks -> pres (option stmt * toks)) : Prop := forall ts o rest, within ts -> one ts = Ok (o, rest) ->
  match o with
  | None => eols ts /\ rest = []
  | Some s1 => exists es, eols es /\
      ((exists t name p, names_label t name /\ s1 = StLabel name p /\ ts = es ++ (t, p) :: rest) \/
       (exists w p, ts = es ++ w ++ (TkEol, p) :: rest /\ statement s1 w (TkEol, p)) \/
       (exists w, rest = [] /\ ts = es ++ w /\ statement s1 w (TkEof, eof)))
  end.

Section One.
Variable one : toks -> pres (option stmt * toks).
Hypothesis ONE : one_conv one.

(** A statement and its end of line, or at the end of the file. *)
Lemma one_lines : forall ts s1 rest, within ts -> one ts = Ok (Some s1, rest) ->
  within rest /\ ((exists w, ts = w ++ rest /\ lines [s1] w) \/ rest = []).
Proof.
  intros ts s1 rest W H. destruct (ONE ts (Some s1) rest W H) as (es & ES & [(t & name & p & NL & -> & E)|[(w & p & E & ST)|(w & E1 & E & ST)]]).
  - split.
    + rewrite E in W. apply within_app in W. exact (within_cons _ _ W).
    + left. exists (es ++ [(t, p)]). split; [lst|]. apply lines_eols; [exact ES|]. constructor; [exact NL|constructor].
  - split.
    + rewrite E in W. apply within_app, within_app in W. exact (within_cons _ _ W).
    + left. exists (es ++ w ++ [(TkEol, p)]). split; [lst|]. apply lines_eols; [exact ES|]. constructor; [exact ST|constructor].
  - subst rest. split; [|right; reflexivity]. rewrite <- (app_nil_r ts) in W. exact (within_app _ _ W).
Qed.
Lemma one_nil : forall o rest, one [] = Ok (o, rest) -> o = None.
Proof.
  intros o rest H. assert (W : within []) by (exists full; rewrite app_nil_r; reflexivity).
  pose proof (ONE [] o rest W H) as C. destruct o as [s1|]; [|reflexivity]. exfalso.
  destruct C as (es & ES & [(t & name & p & NL & _ & E)|[(w & p & E & ST)|(w & _ & E & ST)]]).
  - destruct es; discriminate E.
  - destruct es; [|discriminate E]. destruct w; discriminate E.
  - destruct es; [|discriminate E]. cbn [app] in E. subst w. destruct (statement_start _ _ _ ST) as (? & ? & ? & E & _). discriminate E.
Qed.

Lemma conv_until : forall n delim acc ts l rest, within ts -> until eof one n delim acc ts = Ok (l, rest) -> rest <> [] ->
  exists b w, l = acc ++ b /\ ts = w ++ rest /\ lines b w.
Proof.
  induction n as [|n IH]; intros delim acc ts l rest W H NE; [discriminate H|]. cbn [until] in H.
  destruct (token_dec _ _).
  { inv H. exists [], []. split; [rewrite app_nil_r; reflexivity|]. split; [reflexivity|constructor]. }
  destruct (peek ts) as [tok pos] eqn:P. cbn [fst] in H.
  assert (X : (get o, ts <- one ts;
            match o with
            | Some st => until eof one n delim (acc ++ [st]) ts
            | None => Ok (acc, ts)
            end) = Ok (l, rest) -> exists b w, l = acc ++ b /\ ts = w ++ rest /\ lines b w).
  { clear H. intros H. bind H o ts1 E1. destruct o as [s1|].
    - destruct (one_lines ts s1 ts1 W E1) as [W1 [(w & Ew & L)|Z]].
      + apply IH in H; [|exact W1|exact NE]. destruct H as (b & wb & -> & Eb & LB).
        exists (s1 :: b), (w ++ wb). split; [rewrite <- app_assoc; reflexivity|]. split; [lst|].
        exact (lines_app [s1] w L b wb LB).
      + subst ts1. exfalso. destruct n as [|n]; [discriminate H|]. cbn [until] in H. destruct (token_dec _ _); [inv H; congruence|].
        cbn [Parse_Model.peek fst] in H. bind H o ts1 E2. pose proof (one_nil _ _ E2). subst o. inv H.
        destruct (ONE [] None rest W1 E2) as [_ Z]. congruence.
    - inv H. destruct (ONE ts None rest W E1) as [_ Z]. congruence. }
  destruct tok; try (apply X; exact H). clear X.
  first_token P. rename H0 into E0. apply IH in H; [| |exact NE].
  - destruct H as (b & w & -> & Ew & L). exists b, ((TkEol, pos) :: w). split; [reflexivity|]. split; [lst|]. constructor. exact L.
  - rewrite E0 in W. exact (within_cons _ _ W).
Qed.

Lemma conv_do : forall p ts s1 rest, within ((TkDo, p) :: ts) -> parse_do eof one p ts = Ok (s1, rest) ->
  exists w, ts = w ++ rest /\ statement s1 ((TkDo, p) :: w) (peek rest).
Proof.
  intros p ts s1 rest W H. unfold parse_do in H.
  bind H pre ts1 E1. apply (conv_do_guard TkDo p) in E1; [|exact W]. destruct E1 as (w1 & g1 & Ew1 & -> & G1).
  pose proof (within_rest _ _ _ _ W Ew1) as W1.
  bind H nl ts2 E2. apply conv_expect in E2; [|discriminate]. subst ts1.
  bind H body ts3 E3. bind H u1 ts4 E4. apply conv_expect_at in E4; [|discriminate]. destruct E4 as [r ->].
  apply conv_until in E3; [|exact (within_cons _ _ W1)|discriminate]. destruct E3 as (b & wb & Eb & Ewb & LB). cbn [app] in Eb. subst body.
  bind H post ts5 E5. apply (conv_do_guard TkLoop r) in E5.
  2:{ apply within_cons in W1. rewrite Ewb in W1. exact (within_app _ _ W1). }
  destruct E5 as (w2 & g2 & Ew2 & -> & G2).
  assert (X : forall g, do_guards g g1 g2 -> s1 = StDo g b -> rest = ts5 -> exists w, ts = w ++ rest /\ statement s1 ((TkDo, p) :: w) (peek rest)).
  { intros g DG -> ->. exists (w1 ++ (TkEol, nl) :: wb ++ (TkLoop, r) :: w2). split; [lst|]. eapply st_do; eassumption. }
  destruct g1 as [[[] e1]|], g2 as [[[] e2]|]; cbn [swap] in H; try discriminate H; apply Ok_inj, pair_equal_spec in H; destruct H as [<- <-];
    (eapply X; [|reflexivity|reflexivity]; constructor).
Qed.
Lemma conv_while : forall p ts s1 rest, within ((TkWhile, p) :: ts) -> parse_while eof one p ts = Ok (s1, rest) ->
  exists w, ts = w ++ rest /\ statement s1 ((TkWhile, p) :: w) (peek rest).
Proof.
  intros p ts s1 rest W H. unfold parse_while in H.
  bind H e ts1 E1. apply (conv_required TkWhile p) in E1; [|exact W|q]. destruct E1 as (w1 & Ew1 & _ & WR).
  pose proof (within_rest _ _ _ _ W Ew1) as W1.
  bind H nl ts2 E2. apply conv_expect in E2; [|discriminate]. subst ts1.
  bind H body ts3 E3. bind H u1 ts4 E4. apply conv_expect_at in E4; [|discriminate]. destruct E4 as [r ->].
  apply conv_until in E3; [|exact (within_cons _ _ W1)|discriminate]. destruct E3 as (b & wb & Eb & Ewb & LB). cbn [app] in Eb. subst body.
  inv H. exists (w1 ++ (TkEol, nl) :: wb ++ [(TkWend, r)]). split; [lst|]. apply st_while; assumption.
Qed.
Lemma conv_for : forall p ts s1 rest, within ((TkFor, p) :: ts) -> parse_for eof one p ts = Ok (s1, rest) ->
  exists w, ts = w ++ rest /\ statement s1 ((TkFor, p) :: w) (peek rest).
Proof.
  intros p ts s1 rest W H. unfold parse_for in H. destruct (peek ts) as [tok pos] eqn:P. destruct tok; try discriminate H.
  first_token P. rename H0 into E0. pose proof (within_cons _ _ W) as W0. rewrite E0 in W0. apply within_cons in W0.
  assert (X : numeric_name v -> (get _p, ts <- expect eof TkEqual "No equal sign in FOR statement" (consume ts);
          get start, ts <- parse_required_expr eof "No start expression in FOR statement" ts;
          get to_pos, ts <- expect eof TkTo "No TO in FOR statement" ts;
          get end_, ts <- parse_required_expr eof "No end expression in FOR statement" ts;
          get st, ts <- parse_step eof p ts;
          let '(step, sign, iter_double) := st in
          match sign with
          | Eq => bad (start_pos step) "Infinite FOR loop; STEP cannot be 0"
          | _ =>
              let condition := EBinary (match sign with Gt => BLessEqual | _ => BGreaterEqual end)
                                 (ESymbol v pos) end_ to_pos in
              let next := EBinary BAdd (ESymbol v pos) step to_pos in
              get _p, ts <- expect eof TkEol "Expecting newline after FOR" ts;
              get body, ts <- parse_until eof one TkNext ts;
              get _u, ts <- expect_at eof TkNext p "FOR without NEXT" ts;
              Ok (StFor v pos iter_double start condition next body, ts)
          end) = Ok (s1, rest) -> exists w, ts = w ++ rest /\ statement s1 ((TkFor, p) :: w) (peek rest)).
  { clear H. intros NN H. bind H q0 ts1 E1. apply conv_expect in E1; [|discriminate]. rewrite E1 in W0.
    bind H e1 ts2 E2. apply (conv_required TkEqual q0) in E2; [|exact W0|q]. destruct E2 as (w1 & Ew1 & _ & WR1).
    pose proof (within_rest _ _ _ _ W0 Ew1) as W1.
    bind H r ts3 E3. apply conv_expect in E3; [|discriminate]. rewrite E3 in W1.
    bind H e2 ts4 E4. apply (conv_required TkTo r) in E4; [|exact W1|q]. destruct E4 as (w2 & Ew2 & _ & WR2).
    pose proof (within_rest _ _ _ _ W1 Ew2) as W2.
    bind H s2 ts5 E5. destruct s2 as [[e sign] dbl].
    assert (NE : sign <> Eq) by (intros ->; discriminate H).
    destruct (conv_step _ _ _ _ _ _ E5 NE) as (ws & up & Ews & SP & SG).
    assert (W3 : within ts5) by (rewrite Ews in W2; exact (within_app _ _ W2)).
    assert (H1 : (get _p, ts <- expect eof TkEol "Expecting newline after FOR" ts5;
              get body, ts <- parse_until eof one TkNext ts;
              get _u, ts <- expect_at eof TkNext p "FOR without NEXT" ts;
              Ok (StFor v pos dbl e1 (EBinary (if up : bool then BLessEqual else BGreaterEqual) (ESymbol v pos) e2 r)
                  (EBinary BAdd (ESymbol v pos) e r) body, ts)) = Ok (s1, rest)).
    { destruct up; subst sign; exact H. }
    clear H. bind H1 nl ts6 E6. apply conv_expect in E6; [|discriminate]. subst ts5.
    bind H1 body ts7 E7. bind H1 u1 ts8 E8. apply conv_expect_at in E8; [|discriminate]. destruct E8 as [np ->].
    apply conv_until in E7; [|exact (within_cons _ _ W3)|discriminate]. destruct E7 as (b & wb & Eb & Ewb & LB). cbn [app] in Eb. subst body.
    inv H1.
    exists ((TkSymbol v, pos) :: (TkEqual, q0) :: w1 ++ (TkTo, r) :: w2 ++ ws ++ (TkEol, nl) :: wb ++ [(TkNext, np)]).
    split; [lst|]. eapply st_for; eassumption. }
  unfold numeric_name in X. destruct (vr_type v) as [[]|]; try discriminate H; apply X; auto.
Qed.

(** After an END statement, a line ends. *)
Lemma after_end : forall pos we o w ts1 b rest, maybe o we -> at_end ts1 -> ts1 = w ++ rest -> lines b w ->
  (forall t p r, rest = (t, p) :: r -> ~ ends t) -> ts1 <> [] ->
  lines (StEnd o pos :: b) ((TkEnd, pos) :: we ++ w).
Proof.
  intros pos we o w ts1 b rest M AE E L NR NE. destruct w as [|[t p] w].
  - exfalso. cbn [app] in E. subst ts1. destruct rest as [|[t p] rest]; [congruence|]. exact (NR t p rest eq_refl AE).
  - subst ts1. cbn [app at_end] in AE. destruct (lines_first _ _ t p w L eq_refl AE) as [-> L'].
    change ((TkEnd, pos) :: we ++ (TkEol, p) :: w) with (((TkEnd, pos) :: we) ++ (TkEol, p) :: w).
    constructor; [|exact L']. constructor. constructor. exact M.
Qed.

Lemma conv_if_multiline : forall n p done g body last ts r rest, within ts ->
  if_multiline eof one n p done g body last ts = Ok (r, rest) ->
  exists b w l wr ep ip, ts = w ++ wr ++ (TkEnd, ep) :: (TkIf, ip) :: rest /\ r = done ++ (g, body ++ b) :: l /\
    branch_body b w wr /\ branches l wr /\ (last = true -> l = [] /\ wr = []).
Proof.
  induction n as [|n IH]; intros p dn g body last ts r rest W H; [discriminate H|]. cbn [if_multiline] in H.
  destruct (peek ts) as [tok pos] eqn:P.
  assert (X : (get o, ts <- one ts;
          match o with
          | Some st => if_multiline eof one n p dn g (body ++ [st]) last ts
          | None => get _u, ts0 <- expect_at eof TkIf p "IF without END IF" ts; Ok (dn ++ [(g, body)], ts0)
          end) = Ok (r, rest) ->
     exists b w l wr ep ip, ts = w ++ wr ++ (TkEnd, ep) :: (TkIf, ip) :: rest /\ r = dn ++ (g, body ++ b) :: l /\
       branch_body b w wr /\ branches l wr /\ (last = true -> l = [] /\ wr = [])).
  { clear H. intros H. bind H o ts1 E1. destruct o as [s1|].
    - destruct (one_lines ts s1 ts1 W E1) as [W1 C]. apply IH in H; [|exact W1].
      destruct H as (b & w & l & wr & ep & ip & Ew & -> & BB & BR & LA).
      destruct C as [(w1 & Ew1 & L)|Z]; [|exfalso; subst ts1; destruct w; [|discriminate Z]; destruct wr; discriminate Z].
      exists (s1 :: b), (w1 ++ w), l, wr, ep, ip. split; [lst|]. split; [rewrite <- app_assoc; reflexivity|].
      split; [exact (bb_app [s1] w1 L b w wr BB)|]. auto.
    - destruct (ONE ts None ts1 W E1) as [_ ->]. discriminate H. }
  destruct tok; try (apply X; exact H); clear X; first_token P; rename H0 into E0; pose proof W as W0; rewrite E0 in W0.
  - (* end of line *)
    apply IH in H; [|exact (within_cons _ _ W0)]. destruct H as (b & w & l & wr & ep & ip & Ew & -> & BB & BR & LA).
    exists b, ((TkEol, pos) :: w), l, wr, ep, ip. split; [lst|]. split; [reflexivity|]. split; [|auto].
    exact (bb_app [] [(TkEol, pos)] (ln_empty _ _ _ ln_none) b w wr BB).
  - (* ELSE *)
    destruct last; [discriminate H|]. bind H q0 ts1 E1. apply conv_expect in E1; [|discriminate].
    apply IH in H. 2:{ rewrite E1 in W0. exact (within_cons _ _ (within_cons _ _ W0)). }
    destruct H as (b & w & l & wr & ep & ip & Ew & -> & BB & BR & LA). destruct (LA eq_refl) as [-> ->].
    assert (LB : lines b w) by (remember [] as nx eqn:Z in BB; destruct BB; [assumption|discriminate Z]).
    exists [], [], [(EBoolean true pos, b)], ((TkElse, pos) :: (TkEol, q0) :: w), ep, ip.
    split; [cbn [app] in Ew; lst|]. split; [rewrite app_nil_r, <- app_assoc; reflexivity|].
    split; [apply bb_lines; constructor|]. split; [constructor; exact LB|discriminate].
  - (* ELSEIF *)
    destruct last; [discriminate H|]. bind H e ts1 E1. apply (conv_required TkElseif pos) in E1; [|exact W0|q].
    destruct E1 as (w1 & Ew1 & _ & WR). pose proof (within_rest _ _ _ _ W0 Ew1) as W1.
    bind H q0 ts2 E2. apply conv_expect in E2; [|discriminate]. bind H q1 ts3 E3. apply conv_expect in E3; [|discriminate].
    apply IH in H. 2:{ rewrite E2, E3 in W1. exact (within_cons _ _ (within_cons _ _ W1)). }
    destruct H as (b & w & l & wr & ep & ip & Ew & -> & BB & BR & LA).
    exists [], [], ((e, b) :: l), ((TkElseif, pos) :: w1 ++ (TkThen, q0) :: (TkEol, q1) :: w ++ wr), ep, ip.
    split; [lst|]. split; [rewrite app_nil_r, <- app_assoc; reflexivity|].
    split; [apply bb_lines; constructor|]. split; [apply br_elseif; assumption|discriminate].
  - (* END *)
    bind H r1 ts1 E1. destruct (conv_maybe_end pos (consume ts) r1 ts1 W0 E1) as [(o & we & -> & Ee & AE & M)|(-> & -> & I1)].
    + pose proof (within_rest _ _ _ _ W0 Ee) as W1.
      apply IH in H; [|exact W1]. destruct H as (b & w & l & wr & ep & ip & Ew & -> & BB & BR & LA).
      exists (StEnd o pos :: b), ((TkEnd, pos) :: we ++ w), l, wr, ep, ip.
      split; [lst|]. split; [rewrite <- app_assoc; reflexivity|]. split; [|auto].
      destruct BB as [b w next L|b w o2 we2 p2 q2 next L M2].
      * destruct w as [|[t1 p1] w].
        -- (* right before ELSE *)
           apply lines_nil in L. subst b. rewrite app_nil_r.
           destruct BR as [|p2 q2 b2 wb2 L2|p2 e2 w2 q2 nl2 b2 wb2 rest2 wr2 WR2 BB2 BR2].
           ++ exfalso. rewrite Ew in AE. cbn [app at_end] in AE. apply ends_token in AE.
              repeat (destruct AE as [AE|AE]; [discriminate AE|]). discriminate AE.
           ++ exact (bb_end [] [] o we pos p2 _ ln_none M).
           ++ exfalso. rewrite Ew in AE. cbn [app at_end] in AE. apply ends_token in AE.
              repeat (destruct AE as [AE|AE]; [discriminate AE|]). discriminate AE.
        -- assert (EN : ends t1) by (rewrite Ew in AE; exact AE). destruct (lines_first _ _ t1 p1 w L eq_refl EN) as [-> L'].
           apply bb_lines. change ((TkEnd, pos) :: we ++ (TkEol, p1) :: w) with (((TkEnd, pos) :: we) ++ (TkEol, p1) :: w).
           constructor; [|exact L']. constructor. constructor. exact M.
      * destruct w as [|[t1 p1] w].
        -- exfalso. rewrite Ew in AE. cbn [app at_end] in AE. apply ends_token in AE.
           repeat (destruct AE as [AE|AE]; [discriminate AE|]). discriminate AE.
        -- assert (EN : ends t1) by (rewrite Ew in AE; exact AE). destruct (lines_first _ _ t1 p1 w L eq_refl EN) as [-> L'].
           assert (L2 : lines (StEnd o pos :: b) (((TkEnd, pos) :: we) ++ (TkEol, p1) :: w)).
           { constructor; [|exact L']. constructor. constructor. exact M. }
           pose proof (bb_end _ _ o2 we2 p2 q2 next L2 M2) as Y. cbn [app] in Y. rewrite <- app_assoc in Y. exact Y.
    + destruct (peek (consume ts)) as [t2 p2] eqn:P2. cbn [fst] in *.
      assert (T : t2 = TkIf) by (destruct t2; try discriminate H; reflexivity). subst t2.
      bind H u1 ts2 E2. inv H. apply conv_expect_at in E2; [|discriminate]. destruct E2 as [ip E2].
      exists [], [], [], [], pos, ip. split; [lst|]. split; [rewrite app_nil_r; reflexivity|].
      split; [apply bb_lines; constructor|]. split; [constructor|auto].
Qed.

Lemma conv_if : forall p ts s1 rest, within ((TkIf, p) :: ts) -> parse_if eof one p ts = Ok (s1, rest) ->
  exists w, ts = w ++ rest /\ statement s1 ((TkIf, p) :: w) (peek rest).
Proof.
  intros p ts s1 rest W H. unfold parse_if in H.
  bind H e ts1 E1. apply (conv_required TkIf p) in E1; [|exact W|q]. destruct E1 as (w1 & Ew1 & _ & WR).
  pose proof (within_rest _ _ _ _ W Ew1) as W1.
  bind H q0 ts2 E2. apply conv_expect in E2; [|discriminate]. rewrite E2 in W1. pose proof (within_cons _ _ W1) as W2.
  bind H br ts3 E3. inv H.
  destruct (peek ts2) as [tok pos] eqn:P. cbn [fst] in E3.
  assert (U : tok <> TkEol -> tok <> TkEof -> parse_if_uniline eof e ts2 = Ok (br, rest) ->
    exists w, w1 ++ (TkThen, q0) :: ts2 = w ++ rest /\ statement (StIf br) ((TkIf, p) :: w) (peek rest)).
  { clear E3. intros N1 N2 H. pose proof (peek_cons _ _ _ P N2) as E0. unfold parse_if_uniline in H. bind H body ts4 E4. rewrite P in E4. cbn [fst] in E4.
    assert (B : exists wb, ts2 = wb ++ ts4 /\ ((body = [] /\ wb = [] /\ tok = TkElse) \/ exists s2, body = [s2] /\ simple s2 wb (peek ts4))).
    { assert (Y : (get o, ts <- parse_uniline eof ts2; match o with Some st => Ok ([st], ts) | None => Err PPanic end) = Ok (body, ts4) ->
        exists wb, ts2 = wb ++ ts4 /\ ((body = [] /\ wb = [] /\ tok = TkElse) \/ exists s2, body = [s2] /\ simple s2 wb (peek ts4))).
      { intros Z. bind Z o ts5 E5. destruct o as [s2|]; [|discriminate Z]. inv Z.
        destruct (conv_uniline ts2 (Some s2) ts4 W2 E5) as [(s3 & w & Z & Ew & SI)|[(Z & _)|(Z & _)]]; try discriminate Z.
        inversion Z; subst s3. exists w. split; [exact Ew|]. right. exists s2. auto. }
      destruct tok; try (apply Y; exact E4). inv E4. exists []. auto. }
    clear E4. destruct B as (wb & Eb & B). assert (W4 : within ts4) by (rewrite Eb in W2; exact (within_app _ _ W2)).
    destruct (peek ts4) as [tok4 pos4] eqn:P4. cbn [fst snd] in H.
    assert (Y : tok4 <> TkElse -> Ok (E:=parse_error) ([(e, body)], ts4) = Ok (br, rest) ->
      exists w, w1 ++ (TkThen, q0) :: ts2 = w ++ rest /\ statement (StIf br) ((TkIf, p) :: w) (peek rest)).
    { intros N3 Z. inv Z. destruct B as [(-> & -> & ->)|(s2 & -> & SI)].
      - exfalso. cbn [app] in *. rewrite P4 in P. congruence.
      - exists (w1 ++ (TkThen, q0) :: wb). split; [lst|]. apply st_if_line; [exact WR|]. rewrite P4. exact SI. }
    destruct tok4; try (apply Y; [discriminate|exact H]). clear Y.
    first_token P4. rename H0 into E4. bind H o ts5 E5. inv H. rewrite E4 in W4.
    assert (T : then_part body wb (TkElse, pos4)).
    { destruct B as [(-> & -> & _)|(s2 & -> & SI)]; constructor. exact SI. }
    destruct (conv_uniline (consume ts4) o rest (within_cons _ _ W4) E5) as [(s3 & w & -> & Ew & SI)|[(-> & Z1 & Z2)|(-> & p5 & Z1)]].
    - exists (w1 ++ (TkThen, q0) :: wb ++ (TkElse, pos4) :: w). split; [lst|].
      apply st_if_else_line; [exact WR|exact T|constructor; exact SI].
    - exists (w1 ++ (TkThen, q0) :: wb ++ (TkElse, pos4) :: []). split; [lst|].
      apply st_if_else_line; [exact WR|exact T|]. subst rest. constructor.
    - exists (w1 ++ (TkThen, q0) :: wb ++ (TkElse, pos4) :: [(TkEol, p5)]). split; [lst|].
      apply st_if_else_line; [exact WR|exact T|constructor]. }
  assert (M : tok = TkEol -> if_multiline eof one (S (length ts2)) p [] e [] false ts2 = Ok (br, rest) ->
    exists w, w1 ++ (TkThen, q0) :: ts2 = w ++ rest /\ statement (StIf br) ((TkIf, p) :: w) (peek rest)).
  { clear E3 U. intros -> H. first_token P. rename H0 into E0. cbn [if_multiline] in H. rewrite P in H.
    apply conv_if_multiline in H; [|rewrite E0 in W2; exact (within_cons _ _ W2)].
    destruct H as (b & w & l & wr & ep & ip & Ew & -> & BB & BR & _). cbn [app].
    exists (w1 ++ (TkThen, q0) :: (TkEol, pos) :: w ++ wr ++ [(TkEnd, ep); (TkIf, ip)]). split; [lst|].
    apply st_if; assumption. }
  destruct tok; try (apply U; [discriminate|discriminate|exact E3]).
  - exfalso. assert (ts2 = []) by (apply within_eof; [exact W2|rewrite P; reflexivity]). subst ts2.
    apply conv_if_multiline in E3; [|exact W2]. destruct E3 as (b & w & l & wr & ep & ip & Z & _).
    destruct w; [|discriminate Z]. destruct wr; discriminate Z.
  - apply M; [reflexivity|exact E3].
Qed.

Lemma callable_start : forall s1 w stop, statement s1 w stop -> is_callable s1 -> exists t p w', w = (t, p) :: w' /\ (t = TkFunction \/ t = TkSub).
Proof.
  intros s1 w stop H C. destruct H; try (destruct C; fail).
  - destruct H; destruct C.
  - do 3 eexists. split; [reflexivity|]. destruct H; auto.
Qed.

Lemma conv_callable_body : forall n p (f : bool) body ts r rest, within ts ->
  callable_body eof one n p f body ts = Ok (r, rest) ->
  exists b w ep ep', ts = w ++ (TkEnd, ep) :: (if f then TkFunction else TkSub, ep') :: rest /\ r = (body ++ b, ep) /\
    lines b w /\ (forall s1, In s1 b -> ~ is_callable s1).
Proof.
  induction n as [|n IH]; intros p f body ts r rest W H; [discriminate H|]. cbn [callable_body] in H. cbv zeta in H.
  destruct (peek ts) as [tok pos] eqn:P.
  assert (X : forall s0, tok <> TkEol -> tok <> TkFunction -> tok <> TkSub -> tok <> TkEof -> (get o, ts <- one ts;
          match o with
          | Some st => callable_body eof one n p f (body ++ [st]) ts
          | None => bad p s0
          end) = Ok (r, rest) ->
     exists b w ep ep', ts = w ++ (TkEnd, ep) :: (if f then TkFunction else TkSub, ep') :: rest /\ r = (body ++ b, ep) /\
       lines b w /\ (forall s1, In s1 b -> ~ is_callable s1)).
  { clear H. intros s0 N1 N2 N3 N4 H. bind H o ts1 E1. destruct o as [s1|]; [|discriminate H].
    destruct (one_lines ts s1 ts1 W E1) as [W1 C].
    assert (NC : ~ is_callable s1).
    { intros IC. pose proof (peek_cons _ _ _ P N4) as E0.
      destruct (ONE ts (Some s1) ts1 W E1) as (es & ES & [(t & name & p0 & NL & -> & E)|[(w & p0 & E & ST)|(w & _ & E & ST)]]).
      - exact IC.
      - destruct (callable_start _ _ _ ST IC) as (t & p1 & w' & -> & T). destruct es as [|[t2 p2] es].
        + cbn [app] in E. rewrite E in E0. assert (t = tok) by congruence. subst t. destruct T; congruence.
        + inversion ES; subst. cbn [fst] in *. subst t2. cbn [app] in E0. congruence.
      - destruct (callable_start _ _ _ ST IC) as (t & p1 & w' & -> & T). destruct es as [|[t2 p2] es].
        + cbn [app] in E. rewrite E in E0. assert (t = tok) by congruence. subst t. destruct T; congruence.
        + inversion ES; subst. cbn [fst] in *. subst t2. cbn [app] in E0. congruence. }
    apply IH in H; [|exact W1]. destruct H as (b & w & ep & ep' & Ew & -> & L & F).
    destruct C as [(w1 & Ew1 & L1)|Z]; [|exfalso; subst ts1; destruct w; discriminate Z].
    exists (s1 :: b), (w1 ++ w), ep, ep'. split; [lst|]. split; [rewrite <- app_assoc; reflexivity|].
    split; [exact (lines_app [s1] w1 L1 b w L)|]. intros s2 [<-|I2]; [exact NC|exact (F s2 I2)]. }
  destruct tok; try (eapply X; [discriminate|discriminate|discriminate|discriminate|exact H]); clear X; try discriminate H.
  - exfalso. assert (ts = []) by (apply within_eof; [exact W|rewrite P; reflexivity]). subst ts.
    bind H u1 ts2 E2. apply conv_expect_at in E2; [|destruct f; discriminate]. destruct E2 as [? E2]. discriminate E2.
  - first_token P. rename H0 into E0. apply IH in H; [|rewrite E0 in W; exact (within_cons _ _ W)].
    destruct H as (b & w & ep & ep' & Ew & -> & L & F). exists b, ((TkEol, pos) :: w), ep, ep'. split; [lst|]. split; [reflexivity|].
    split; [constructor; exact L|exact F].
  - first_token P. rename H0 into E0. pose proof W as W0. rewrite E0 in W0.
    bind H r1 ts1 E1. destruct (conv_maybe_end pos (consume ts) r1 ts1 W0 E1) as [(o & we & -> & Ee & AE & M)|(-> & -> & I1)].
    + pose proof (within_rest _ _ _ _ W0 Ee) as W1.
      apply IH in H; [|exact W1]. destruct H as (b & w & ep & ep' & Ew & -> & L & F).
      exists (StEnd o pos :: b), ((TkEnd, pos) :: we ++ w), ep, ep'.
      split; [lst|]. split; [rewrite <- app_assoc; reflexivity|]. split.
      * eapply after_end; [exact M|exact AE|exact Ew|exact L| |].
        -- intros t0 p0 r0 Z EN. assert (t0 = TkEnd) by congruence. subst t0. apply ends_token in EN.
           repeat (destruct EN as [EN|EN]; [discriminate EN|]). discriminate EN.
        -- rewrite Ew. destruct w; discriminate.
      * intros s2 [<-|I2]; [intros Z; exact Z|exact (F s2 I2)].
    + destruct (token_dec (fst (peek (consume ts))) (if f then TkFunction else TkSub)); [|discriminate H].
      bind H u1 ts2 E2. inv H. apply conv_expect_at in E2; [|destruct f; discriminate]. destruct E2 as [ip E2].
      exists [], [], pos, ip. split; [lst|]. split; [rewrite app_nil_r; reflexivity|].
      split; [constructor|intros s2 []].
Qed.
Lemma conv_callable : forall (f : bool) p ts s1 rest, within ts -> parse_callable eof one f p ts = Ok (s1, rest) ->
  exists w, ts = w ++ rest /\ statement s1 ((if f then TkFunction else TkSub, p) :: w) (peek rest).
Proof.
  intros f p ts s1 rest W H. unfold parse_callable in H. bind H s2 ts1 E1. destruct s2 as [[name np] l].
  apply conv_signature in E1. destruct E1 as (w & Ew & SG & [PE|[Z _]]); [|discriminate Z].
  destruct (peek ts1) as [tok nl] eqn:P. cbn [fst] in PE. subst tok. first_token P. rename H0 into E0.
  assert (W1 : within ts1) by (rewrite Ew in W; exact (within_app _ _ W)).
  bind H b ts2 E2. inv H. cbn [callable_body] in E2. rewrite P in E2.
  apply conv_callable_body in E2; [|rewrite E0 in W1; exact (within_cons _ _ W1)].
  destruct E2 as (bd & wb & ep & ep' & Eb & -> & L & F). cbn [app fst snd].
  exists (w ++ (TkEol, nl) :: wb ++ [(TkEnd, ep); (if f then TkFunction else TkSub, ep')]). split; [lst|].
  apply st_callable; assumption.
Qed.

Lemma conv_select_cases : forall n p done cur (last : bool) ts r rest, within ts -> (cur = None -> last = false) ->
  select_cases eof one n p done cur last ts = Ok (r, rest) ->
  match cur with
  | Some (gs, body) => exists b w l wr ep sp, ts = w ++ wr ++ (TkEnd, ep) :: (TkSelect, sp) :: rest /\
      r = (done ++ (gs, body ++ b) :: l, ep) /\ lines b w /\ cases l wr /\ (last = true -> l = [] /\ wr = [])
  | None => exists w l wr ep sp, ts = w ++ wr ++ (TkEnd, ep) :: (TkSelect, sp) :: rest /\
      r = (done ++ l, ep) /\ lines [] w /\ cases l wr
  end.
Proof.
  induction n as [|n IH]; intros p dn cur last ts r rest W CL H; [discriminate H|]. cbn [select_cases] in H. cbv zeta in H.
  destruct (peek ts) as [tok pos] eqn:P.
  assert (X : (match cur with
          | None => bad pos "Expected CASE after SELECT CASE before any statement"
          | Some _ => get o, ts0 <- one ts;
              match o with
              | Some st => match cur with
                 | Some (gs, body) => select_cases eof one n p dn (Some (gs, body ++ [st])) last ts0
                 | None => Err PPanic
                 end
              | None => select_cases eof one n p dn cur last ts0
              end
          end) = Ok (r, rest) -> match cur with
  | Some (gs, body) => exists b w l wr ep sp, ts = w ++ wr ++ (TkEnd, ep) :: (TkSelect, sp) :: rest /\
      r = (dn ++ (gs, body ++ b) :: l, ep) /\ lines b w /\ cases l wr /\ (last = true -> l = [] /\ wr = [])
  | None => exists w l wr ep sp, ts = w ++ wr ++ (TkEnd, ep) :: (TkSelect, sp) :: rest /\
      r = (dn ++ l, ep) /\ lines [] w /\ cases l wr
  end).
  { clear H. intros H. destruct cur as [[gs body]|]; [|discriminate H]. bind H o ts1 E1. destruct o as [s1|].
    - destruct (one_lines ts s1 ts1 W E1) as [W1 C]. apply IH in H; [|exact W1|discriminate].
      destruct H as (b & w & l & wr & ep & sp & Ew & -> & L & CS & LA).
      destruct C as [(w1 & Ew1 & L1)|Z]; [|exfalso; subst ts1; destruct w; [|discriminate Z]; destruct wr; discriminate Z].
      exists (s1 :: b), (w1 ++ w), l, wr, ep, sp. split; [lst|]. split; [rewrite <- app_assoc; reflexivity|].
      split; [exact (lines_app [s1] w1 L1 b w L)|]. auto.
    - exfalso. destruct (ONE ts None ts1 W E1) as [_ ->].
      apply IH in H; [|rewrite <- (app_nil_r ts) in W; exact (within_app _ _ W)|discriminate].
      destruct H as (b & w & l & wr & ep & sp & Z & _). destruct w; [|discriminate Z]. destruct wr; discriminate Z. }
  destruct tok; try (apply X; exact H); clear X.
  - exfalso. assert (ts = []) by (apply within_eof; [exact W|rewrite P; reflexivity]). subst ts.
    bind H u1 ts2 E2. apply conv_expect_at in E2; [|discriminate]. destruct E2 as [? E2]. discriminate E2.
  - first_token P. rename H0 into E0. apply IH in H; [|rewrite E0 in W; exact (within_cons _ _ W)|exact CL].
    destruct cur as [[gs body]|].
    + destruct H as (b & w & l & wr & ep & sp & Ew & -> & L & CS & LA).
      exists b, ((TkEol, pos) :: w), l, wr, ep, sp. split; [lst|]. split; [reflexivity|]. split; [constructor; exact L|auto].
    + destruct H as (w & l & wr & ep & sp & Ew & -> & L & CS).
      exists ((TkEol, pos) :: w), l, wr, ep, sp. split; [lst|]. split; [reflexivity|]. split; [constructor; exact L|auto].
  - (* CASE *)
    first_token P. rename H0 into E0. pose proof W as W0. rewrite E0 in W0.
    bind H gs1 ts1 E1. bind H nl ts2 E2. apply conv_expect in E2; [|discriminate].
    destruct last; [discriminate H|].
    unfold parse_case_guards in E1. apply (conv_case_guards _ TkCase pos) in E1; [|exact W0|q].
    assert (W2 : within ts2).
    { assert (W1 : within ts1).
      { destruct E1 as [(_ & _ & p1 & E1)|(_ & l & w & E1 & _)]; apply within_cons in W0; rewrite E1 in W0;
          [exact (within_cons _ _ W0)|exact (within_app _ _ W0)]. }
      rewrite E2 in W1. exact (within_cons _ _ W1). }
    apply IH in H; [|exact W2|discriminate]. destruct H as (b & w & l & wr & ep & sp & Ew & -> & L & CS & LA).
    assert (Y : exists wc, ts = wc ++ (TkEnd, ep) :: (TkSelect, sp) :: rest /\ cases ((gs1, [] ++ b) :: l) wc).
    { cbn [app]. destruct E1 as [(_ & -> & p1 & E1)|(_ & gl & w1 & E1 & -> & CT)].
      - destruct (LA eq_refl) as [-> ->]. exists ((TkCase, pos) :: (TkElse, p1) :: (TkEol, nl) :: w). split; [cbn [app] in Ew; lst|constructor; exact L].
      - cbn [app]. exists ((TkCase, pos) :: w1 ++ (TkEol, nl) :: w ++ wr). split; [lst|constructor; assumption]. }
    destruct Y as (wc & Ec & CC). destruct cur as [[gs body]|].
    + exists [], [], ((gs1, [] ++ b) :: l), wc, ep, sp. split; [exact Ec|]. split; [rewrite app_nil_r, <- app_assoc; reflexivity|].
      split; [constructor|]. split; [exact CC|discriminate].
    + exists [], ((gs1, [] ++ b) :: l), wc, ep, sp. split; [exact Ec|]. split; [rewrite app_nil_r; reflexivity|].
      split; [constructor|exact CC].
  - (* END *)
    first_token P. rename H0 into E0. pose proof W as W0. rewrite E0 in W0.
    bind H r1 ts1 E1. destruct (conv_maybe_end pos (consume ts) r1 ts1 W0 E1) as [(o & we & -> & Ee & AE & M)|(-> & -> & I1)].
    + destruct cur as [[gs body]|]; [|discriminate H]. pose proof (within_rest _ _ _ _ W0 Ee) as W1.
      apply IH in H; [|exact W1|discriminate]. destruct H as (b & w & l & wr & ep & sp & Ew & -> & L & CS & LA).
      exists (StEnd o pos :: b), ((TkEnd, pos) :: we ++ w), l, wr, ep, sp.
      split; [lst|]. split; [rewrite <- app_assoc; reflexivity|]. split; [|auto].
      eapply after_end; [exact M|exact AE|exact Ew|exact L| |].
      * intros t0 p0 r0 Z EN. apply ends_token in EN.
        assert (T : t0 = TkEnd \/ t0 = TkCase) by (destruct CS; cbn [app] in Z; [left|right|right]; congruence).
        destruct T; subst t0; repeat (destruct EN as [EN|EN]; [discriminate EN|]); discriminate EN.
      * rewrite Ew. destruct w; [|discriminate]. destruct wr; discriminate.
    + assert (T : fst (peek (consume ts)) = TkSelect).
      { destruct (fst (peek (consume ts))); try reflexivity; destruct cur; discriminate H. }
      rewrite T in H. bind H u1 ts2 E2. inv H. apply conv_expect_at in E2; [|discriminate]. destruct E2 as [sp E2].
      destruct cur as [[gs body]|].
      * exists [], [], [], [], pos, sp. split; [lst|]. split; [rewrite app_nil_r; reflexivity|].
        split; [constructor|]. split; [constructor|auto].
      * exists [], [], [], pos, sp. split; [lst|]. split; [rewrite !app_nil_r; reflexivity|]. split; constructor.
Qed.
Lemma conv_select : forall p ts s1 rest, within ts -> parse_select eof one p ts = Ok (s1, rest) ->
  exists w, ts = w ++ rest /\ statement s1 ((TkSelect, p) :: w) (peek rest).
Proof.
  intros p ts s1 rest W H. unfold parse_select in H. bind H q0 ts1 E1. apply conv_expect in E1; [|discriminate]. rewrite E1 in W.
  bind H e ts2 E2. apply (conv_required TkCase q0) in E2; [|exact W|q]. destruct E2 as (w1 & Ew1 & _ & WR).
  pose proof (within_rest _ _ _ _ W Ew1) as W1.
  bind H nl ts3 E3. apply conv_expect in E3; [|discriminate]. rewrite E3 in W1.
  bind H c ts4 E4. inv H. apply conv_select_cases in E4; [|exact (within_cons _ _ W1)|reflexivity].
  destruct E4 as (w & l & wr & ep & sp & Ew & -> & L & CS). cbn [app fst snd].
  exists ((TkCase, q0) :: w1 ++ (TkEol, nl) :: w ++ wr ++ [(TkEnd, ep); (TkSelect, sp)]). split; [lst|].
  apply st_select; assumption.
Qed.

Lemma conv_keyword : forall tok pos ts s1 rest, within ((tok, pos) :: ts) -> parse_keyword eof one tok pos ts = Ok (s1, rest) ->
  exists w, ts = w ++ rest /\ statement s1 ((tok, pos) :: w) (peek rest).
Proof.
  intros tok pos ts s1 rest W H.
  assert (X : is_simple tok -> exists w, ts = w ++ rest /\ statement s1 ((tok, pos) :: w) (peek rest)).
  { intros IS. destruct (conv_simple one tok pos ts s1 rest IS W H) as (w & E & SI). exists w. split; [exact E|constructor; exact SI]. }
  pose proof (within_cons _ _ W) as W0.
  destruct tok; try (apply X; exact Logic.I); clear X; cbn [parse_keyword] in H; try discriminate H;
    first [exact (conv_declare _ _ _ _ H) | exact (conv_dim _ _ _ _ W H) | exact (conv_do _ _ _ _ W H) | exact (conv_if _ _ _ _ W H)
      | exact (conv_for _ _ _ _ W H) | exact (conv_callable true _ _ _ _ W0 H) | exact (conv_callable false _ _ _ _ W0 H)
      | exact (conv_select _ _ _ _ W0 H) | exact (conv_while _ _ _ _ W H)].
Qed.
End One.

Lemma skip_eols_spec : forall ts, exists es, eols es /\ ts = es ++ skip_eols ts /\ fst (peek (skip_eols ts)) <> TkEol.
Proof.
  induction ts as [|[t p] ts IH]; [exists []; split; [constructor|split; [reflexivity|discriminate]]|].
  destruct t; try (exists []; split; [constructor|split; [reflexivity|discriminate]]).
  destruct IH as (es & E1 & E2 & E3). exists ((TkEol, p) :: es). split; [constructor; [reflexivity|exact E1]|].
  cbn [skip_eols app]. split; [f_equal; exact E2|exact E3].
Qed.

Lemma conv_one : forall n, one_conv (parse_one eof n).
Proof.
  induction n as [|n IH]; intros ts o rest W H; [discriminate H|]. cbn [parse_one] in H. unfold one_step in H.
  destruct (skip_eols_spec ts) as (es & ES & E & _).
  assert (W1 : within (skip_eols ts)) by (rewrite E in W; exact (within_app _ _ W)).
  remember (skip_eols ts) as ts0 eqn:Z. clear Z. destruct (peek ts0) as [tok pos] eqn:P.
  assert (X : tok <> TkEof -> (get st, ts <- parse_keyword eof (parse_one eof n) tok pos (consume ts0);
      let '(tok, pos) := peek ts in
      match tok with
      | TkEof => Ok (Some st, ts)
      | TkEol => Ok (Some st, consume ts)
      | _ => bad_token pos "Expected newline but found {}" tok
      end) = Ok (o, rest) -> match o with
     | None => eols ts /\ rest = []
     | Some s1 => exists es, eols es /\
      ((exists t name p, names_label t name /\ s1 = StLabel name p /\ ts = es ++ (t, p) :: rest) \/
       (exists w p, ts = es ++ w ++ (TkEol, p) :: rest /\ statement s1 w (TkEol, p)) \/
       (exists w, rest = [] /\ ts = es ++ w /\ statement s1 w (TkEof, eof)))
     end).
  { clear H. intros NE H. pose proof (peek_cons _ _ _ P NE) as E0. rewrite E0 in W1.
    bind H s1 ts1 E1. apply (conv_keyword _ IH) in E1; [|exact W1]. destruct E1 as (w & Ew & ST).
    pose proof (within_rest _ _ _ _ W1 Ew) as W2.
    destruct (peek ts1) as [tok1 pos1] eqn:P1.
    destruct tok1; try discriminate H.
    - assert (ts1 = []) by (apply within_eof; [exact W2|rewrite P1; reflexivity]). subst ts1. inv H.
      exists es. split; [exact ES|]. right. right. exists ((tok, pos) :: w). split; [reflexivity|]. split.
      + rewrite app_nil_r in Ew. rewrite E0, Ew. reflexivity.
      + cbn in P1. injection P1 as <-. exact ST.
    - first_token P1. rename H0 into E1. inv H. exists es. split; [exact ES|]. right. left.
      exists ((tok, pos) :: w), pos1. split; [lst|exact ST]. }
  destruct tok; try (apply X; [discriminate|exact H]); clear X.
  - assert (ts0 = []) by (apply within_eof; [exact W1|rewrite P; reflexivity]). subst ts0. inv H. rewrite app_nil_r. auto.
  - first_token P. rename H0 into E0. inv H. exists es. split; [exact ES|]. left. do 3 eexists. split; [constructor|]. split; [reflexivity|]. lst.
  - first_token P. rename H0 into E0. inv H. exists es. split; [exact ES|]. left. do 3 eexists. split; [apply nl_label|]. split; [reflexivity|]. lst.
Qed.

Lemma program_app : forall l1 w1 l2 w2, lines l1 w1 -> program eof l2 w2 -> program eof (l1 ++ l2) (w1 ++ w2).
Proof.
  intros l1 w1 l2 w2 L P. destruct P as [l2 w2 L2|l2 w2 s1 ws L2 ST].
  - apply pg_lines. apply lines_app; assumption.
  - rewrite !app_assoc. apply pg_last; [apply lines_app; assumption|exact ST].
Qed.

Lemma conv_all : forall n ts l, within ts -> parse_all eof n ts = (l, None) -> program eof l ts.
Proof.
  induction n as [|n IH]; intros ts l W H; [discriminate H|]. cbn [parse_all] in H.
  destruct (parse_one eof (S (length ts)) ts) as [[[s1|] ts1]|e] eqn:E1; [| |discriminate H].
  - destruct (parse_all eof n ts1) as [l1 e1] eqn:E2. apply pair_equal_spec in H. destruct H as [<- ->].
    destruct (one_lines _ (conv_one _) ts s1 ts1 W E1) as [W1 _].
    pose proof (IH ts1 l1 W1 E2) as P1.
    destruct (conv_one _ ts (Some s1) ts1 W E1) as (es & ES & [(t & name & p & NL & -> & E)|[(w & p & E & ST)|(w & Z & E & ST)]]).
    + subst ts. replace (es ++ (t, p) :: ts1) with ((es ++ [(t, p)]) ++ ts1) by (rewrite <- app_assoc; reflexivity).
      apply (program_app [StLabel name p]); [|exact P1]. apply lines_eols; [exact ES|]. constructor; [exact NL|constructor].
    + subst ts. replace (es ++ w ++ (TkEol, p) :: ts1) with ((es ++ w ++ [(TkEol, p)]) ++ ts1) by (rewrite <- !app_assoc; reflexivity).
      apply (program_app [s1]); [|exact P1]. apply lines_eols; [exact ES|]. constructor; [exact ST|constructor].
    + subst ts ts1. destruct n as [|n]; [discriminate E2|]. cbn in E2. injection E2 as <-.
      apply (pg_last eof [] es s1 w); [apply eols_lines; exact ES|exact ST].
  - apply pair_equal_spec in H. destruct H as [<- _]. destruct (conv_one _ ts None ts1 W E1) as [ES _].
    apply pg_lines, eols_lines. exact ES.
Qed.

End Eof.

Theorem program_converse : forall eof ts l, usual_program ts -> parse_stmts eof ts = (l, None) -> program eof l ts.
Proof.
  intros eof ts l U H. apply (conv_all eof ts U (S (length ts))); [|exact H]. exists []. reflexivity.
Qed.
