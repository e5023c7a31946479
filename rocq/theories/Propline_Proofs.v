(** The property line of a script is found as it should. *)
From Coq Require Import String.
From Verif Require Import Base Text_Model Text_Proofs Propline_Model Propline_Spec.
Local Open Scope string_scope.
Local Open Scope list_scope.
Local Open Scope nat_scope.

Lemma strip_prefix_app p b : strip_prefix p (p ++ b) = Some b.
Proof. unfold strip_prefix. rewrite starts_with_app, skipn_app, skipn_all, Nat.sub_diag. reflexivity. Qed.
Lemma strip_prefix_some p b r : strip_prefix p b = Some r -> b = p ++ r.
Proof.
  unfold strip_prefix. destruct (starts_with b p) eqn:S0; [|discriminate]. intros E. injection E as <-. apply starts_with_spec in S0. destruct S0 as [r ->].
  rewrite skipn_app, skipn_all, Nat.sub_diag. reflexivity.
Qed.
Lemma strip_prefix_none p b : strip_prefix p b = None -> forall r, b <> p ++ r.
Proof. intros E r ->. rewrite strip_prefix_app in E. discriminate E. Qed.
Lemma strip_prefix_not p b : (forall r, b <> p ++ r) -> strip_prefix p b = None.
Proof. intros H. destruct (strip_prefix p b) as [r|] eqn:E; [|reflexivity]. destruct (H r (strip_prefix_some _ _ _ E)). Qed.

(** ** Lines *)
Lemma read_line_lf l rest : ~ In 10%N l -> read_line (l ++ 10%N :: rest) = (l ++ [10%N], rest).
Proof.
  induction l as [|x l IH]; intros NI; [reflexivity|]. cbn [app read_line]. destruct (N.eqb_spec x 10) as [->|NE]; [destruct NI; left; reflexivity|].
  rewrite IH; [reflexivity|]. intros I0. apply NI. right. exact I0.
Qed.
Lemma read_line_last l : ~ In 10%N l -> read_line l = (l, []).
Proof.
  induction l as [|x l IH]; intros NI; [reflexivity|]. cbn [read_line]. destruct (N.eqb_spec x 10) as [->|NE]; [destruct NI; left; reflexivity|].
  rewrite IH; [reflexivity|]. intros I0. apply NI. right. exact I0.
Qed.
Lemma lf_or_not s : (exists l rest, s = l ++ 10%N :: rest /\ ~ In 10%N l) \/ ~ In 10%N s.
Proof.
  induction s as [|x s IH]; [right; intros []|]. destruct (N.eqb_spec x 10) as [->|NE]; [left; exists [], s; split; [reflexivity|intros []]|].
  destruct IH as [(l & rest & -> & NI)|NI]; [left; exists (x :: l), rest; split; [reflexivity|]|right]; (intros [E|I0]; [apply NE, E|apply NI, I0]).
Qed.
Lemma ends_with_last c l x : ends_with c (l ++ [x]) = (x =? c)%N.
Proof. unfold ends_with. rewrite rev_app_distr. reflexivity. Qed.
Lemma ends_with_true c l : ends_with c l = true -> exists l', l = l' ++ [c].
Proof.
  unfold ends_with. destruct (rev l) as [|x r] eqn:E; [discriminate|]. intros X. apply N.eqb_eq in X. subst x. exists (rev r).
  rewrite <- (rev_involutive l), E. reflexivity.
Qed.
Lemma ends_with_not c l : (forall l', l <> l' ++ [c]) -> ends_with c l = false.
Proof. intros H. destruct (ends_with c l) eqn:E; [|reflexivity]. destruct (ends_with_true _ _ E) as [l' ->]. destruct (H l' eq_refl). Qed.
Lemma ends_with_false c l : ends_with c l = false -> forall l', l <> l' ++ [c].
Proof. intros E l' ->. rewrite ends_with_last, N.eqb_refl in E. discriminate E. Qed.
Lemma strip_lf l : strip_newline (l ++ [10%N]) = if ends_with 13 l then pop l else l.
Proof. unfold strip_newline, pop. rewrite ends_with_last, N.eqb_refl, removelast_last. reflexivity. Qed.
Lemma strip_last l : ~ In 10%N l -> strip_newline l = l.
Proof.
  intros NI. unfold strip_newline. rewrite ends_with_not; [reflexivity|]. intros l' ->. apply NI. apply in_or_app. right. left. reflexivity.
Qed.
Lemma read_line_of s l rest : line_of s l rest -> exists raw, read_line s = (raw, rest) /\ (length raw =? 0) = false /\ strip_newline raw = l.
Proof.
  intros H. destruct H as [l rest NI|l rest NI NC|l NE NI].
  - exists ((l ++ [13%N]) ++ [10%N]). split; [|split].
    + change (l ++ [13; 10]%N ++ rest) with (l ++ [13%N] ++ 10%N :: rest). rewrite app_assoc. apply read_line_lf.
      intros I0. apply in_app_or in I0. destruct I0 as [I0|[E|[]]]; [exact (NI I0)|discriminate E].
    + apply Nat.eqb_neq. rewrite app_length. cbn [length]. lia.
    + rewrite strip_lf, ends_with_last. apply removelast_last.
  - exists (l ++ [10%N]). split; [apply read_line_lf, NI|]. split; [apply Nat.eqb_neq; rewrite app_length; cbn [length]; lia|].
    rewrite strip_lf, ends_with_not by exact NC. reflexivity.
  - exists l. split; [apply read_line_last, NI|]. split; [destruct l; [destruct (NE eq_refl)|reflexivity]|apply strip_last, NI].
Qed.
Lemma line_of_exists s : s <> [] -> exists l rest, line_of s l rest.
Proof.
  intros NE. destruct (lf_or_not s) as [(l & rest & -> & NI)|NI]; [|exists s, []; apply Line_last; assumption].
  destruct (ends_with 13 l) eqn:E.
  - destruct (ends_with_true _ _ E) as [l' ->]. exists l', rest. rewrite <- app_assoc. apply (Line_crlf l' rest).
    intros I0. apply NI. apply in_or_app. left. exact I0.
  - exists l, rest. apply (Line_lf l rest NI). apply ends_with_false, E.
Qed.
Lemma extract_second s l : second_line s l -> extract_propline s = parse_propline l.
Proof.
  intros (p & rest & rest' & A & B). destruct (read_line_of _ _ _ A) as (raw & RA & NA & SA). destruct (read_line_of _ _ _ B) as (raw' & RB & NB & SB).
  unfold extract_propline. rewrite RA, NA, SA, starts_with_app. cbn [negb]. rewrite RB, NB, SB. reflexivity.
Qed.
Lemma second_or_not s : (exists l, second_line s l) \/ ((forall l, ~ second_line s l) /\ extract_propline s = Some (Ok None)).
Proof.
  destruct s as [|x s]; [right; split; [|reflexivity]|].
  { intros l (p & rest & rest' & A & _). destruct (read_line_of _ _ _ A) as (raw & RA & NA & _). injection RA as <- _. discriminate NA. }
  destruct (line_of_exists (x :: s)) as (l1 & rest & A); [discriminate|]. destruct (read_line_of _ _ _ A) as (raw & RA & NA & SA).
  assert (ONE : forall l2 rest2, line_of (x :: s) l2 rest2 -> l2 = l1 /\ rest2 = rest).
  { intros l2 rest2 A2. destruct (read_line_of _ _ _ A2) as (raw2 & RA2 & _ & SA2). rewrite RA in RA2. injection RA2 as <- <-. split; [congruence|reflexivity]. }
  destruct (starts_with l1 (u "#!")) eqn:SH.
  - apply starts_with_spec in SH. destruct SH as [p ->]. destruct rest as [|y rest].
    + right. split; [|unfold extract_propline; rewrite RA, NA, SA, starts_with_app; reflexivity].
      intros l (p2 & r2 & rest' & A2 & B). destruct (ONE _ _ A2) as [_ ->]. destruct (read_line_of _ _ _ B) as (raw' & RB & NB & _). injection RB as <-. discriminate NB.
    + left. destruct (line_of_exists (y :: rest)) as (l & rest' & B); [discriminate|]. exists l, p, (y :: rest), rest'. split; assumption.
  - right. split; [|unfold extract_propline; rewrite RA, NA, SA, SH; reflexivity].
    intros l (p2 & r2 & rest' & A2 & B). destruct (ONE _ _ A2) as [<- _]. rewrite starts_with_app in SH. discriminate SH.
Qed.

(** ** What it says *)
Definition says (line payload : list N) : res (list N) (option (list N)) :=
  match strip_prefix (u "endbasic cli: ") payload with
  | None => Ok None
  | Some payload =>
      match strip_prefix (u "console=") payload with
      | None => Err (u "Invalid EndBASIC propline: " ++ line)
      | Some [] => Err (u "Invalid EndBASIC propline: missing console specification")
      | Some console_spec => Ok (Some console_spec)
      end
  end.
Lemma rem_length r : ascii_lower r = u "rem " -> length r = 4.
Proof. intros E. rewrite <- (map_length lower1 r : length (ascii_lower r) = length r), E. reflexivity. Qed.
Lemma parse_apostrophe p : parse_propline (u "' " ++ p) = Some (says (u "' " ++ p) p).
Proof.
  unfold parse_propline, says. rewrite strip_prefix_app. destruct (strip_prefix (u "endbasic cli: ") p) as [q|]; [|reflexivity].
  destruct (strip_prefix (u "console=") q) as [[|]|]; reflexivity.
Qed.
Lemma rem_not r p q : ascii_lower r = u "rem " -> r ++ p <> u "' " ++ q.
Proof. intros E A. destruct r as [|x r]; [discriminate E|]. cbn [app] in A. injection A as -> A. discriminate E. Qed.
Lemma parse_rem r x p : ascii_lower r = u "rem " -> (x < 128)%N -> parse_propline (r ++ x :: p) = Some (says (r ++ x :: p) (x :: p)).
Proof.
  intros E L. pose proof (rem_length _ E) as LE. unfold parse_propline, says. rewrite strip_prefix_not by (intros q; apply rem_not, E).
  replace (length (r ++ x :: p) <=? 4) with false by (symmetry; apply Nat.leb_gt; rewrite app_length; cbn [length]; lia).
  unfold is_char_boundary. rewrite nth_error_app2, LE, Nat.sub_diag by lia. cbn [nth_error].
  replace (128 <=? x)%N with false by (symmetry; apply N.leb_gt, L). cbn [andb negb].
  rewrite <- LE, firstn_app, firstn_all, Nat.sub_diag, skipn_app, skipn_all, Nat.sub_diag. cbn [firstn skipn app]. rewrite app_nil_r, E.
  rewrite ustr_eqb_refl. destruct (strip_prefix (u "endbasic cli: ") (x :: p)) as [q|]; [|reflexivity].
  destruct (strip_prefix (u "console=") q) as [[|]|]; reflexivity.
Qed.
Lemma parse_comment l p : comment l (u "endbasic cli: " ++ p) -> parse_propline l = Some (says l (u "endbasic cli: " ++ p)).
Proof. intros [->|(r & E & ->)]; [apply parse_apostrophe|]. apply (parse_rem r 101); [exact E|reflexivity]. Qed.
Lemma says_spec l spec : spec <> [] -> says l (u "endbasic cli: console=" ++ spec) = Ok (Some spec).
Proof.
  intros NE. unfold says. change (u "endbasic cli: console=" ++ spec) with (u "endbasic cli: " ++ u "console=" ++ spec). rewrite !strip_prefix_app.
  destruct spec; [destruct (NE eq_refl)|reflexivity].
Qed.
Lemma says_invalid l x : (forall spec, x <> u "console=" ++ spec) -> says l (u "endbasic cli: " ++ x) = Err (u "Invalid EndBASIC propline: " ++ l).
Proof. intros H. unfold says. rewrite strip_prefix_app, strip_prefix_not by exact H. reflexivity. Qed.

Lemma parse_none l : parse_propline l = None <-> splits_char l.
Proof.
  split.
  - intros E. unfold parse_propline in E. destruct (strip_prefix (u "' ") l) as [p|] eqn:S0.
    + destruct (strip_prefix (u "endbasic cli: ") p) as [q|]; [|discriminate E]. destruct (strip_prefix (u "console=") q) as [[|]|]; discriminate E.
    + split; [apply strip_prefix_none, S0|]. destruct (Nat.leb_spec (length l) 4) as [L|L]; [discriminate E|].
      destruct (is_char_boundary l 4) eqn:B.
      * destruct (ustr_eqb (ascii_lower (firstn 4 l)) (u "rem ")); [|discriminate E]. destruct (strip_prefix (u "endbasic cli: ") (skipn 4 l)) as [q|]; [|discriminate E]. destruct (strip_prefix (u "console=") q) as [[|]|]; discriminate E.
      * unfold is_char_boundary in B. destruct (nth_error l 4) as [x|] eqn:N0; [|apply nth_error_None in N0; lia].
        destruct (nth_error_split _ _ N0) as (a & r & -> & LA). exists a, x, r. split; [reflexivity|]. split; [exact LA|].
        apply negb_false_iff, andb_prop in B. destruct B as [A B]. apply N.leb_le in A. apply N.ltb_lt in B. split; assumption.
  - intros [NA (a & x & r & -> & LA & X)]. unfold parse_propline. rewrite strip_prefix_not by exact NA.
    replace (length (a ++ x :: r) <=? 4) with false by (symmetry; apply Nat.leb_gt; rewrite app_length; cbn [length]; lia).
    unfold is_char_boundary. rewrite nth_error_app2, LA, Nat.sub_diag by lia. cbn [nth_error].
    replace (128 <=? x)%N with true by (symmetry; apply N.leb_le, X). replace (x <? 192)%N with true by (symmetry; apply N.ltb_lt, X). reflexivity.
Qed.
Lemma parse_ok_none l : (forall x, ~ comment l (u "endbasic cli: " ++ x)) -> ~ splits_char l -> parse_propline l = Some (Ok None).
Proof.
  intros NC NS. destruct (parse_propline l) as [r|] eqn:P; [|destruct (NS (proj1 (parse_none l) P))]. unfold parse_propline in P.
  destruct (strip_prefix (u "' ") l) as [p|] eqn:S0.
  - apply strip_prefix_some in S0. destruct (strip_prefix (u "endbasic cli: ") p) as [q|] eqn:S1; [|symmetry; exact P]. apply strip_prefix_some in S1. subst p l.
    destruct (NC q (or_introl eq_refl)).
  - destruct (length l <=? 4); [symmetry; exact P|]. destruct (is_char_boundary l 4); [|discriminate P].
    destruct (ustr_eqb (ascii_lower (firstn 4 l)) (u "rem ")) eqn:R; [|symmetry; exact P]. apply ustr_eqb_eq in R.
    destruct (strip_prefix (u "endbasic cli: ") (skipn 4 l)) as [q|] eqn:S1; [|symmetry; exact P]. apply strip_prefix_some in S1.
    destruct (NC q). right. exists (firstn 4 l). split; [exact R|]. rewrite <- S1. symmetry. apply firstn_skipn.
Qed.
Lemma comment_or_not l : (exists x, comment l (u "endbasic cli: " ++ x)) \/ (forall x, ~ comment l (u "endbasic cli: " ++ x)).
Proof.
  destruct (strip_prefix (u "' ") l) as [p|] eqn:S0.
  - apply strip_prefix_some in S0. subst l. destruct (strip_prefix (u "endbasic cli: ") p) as [q|] eqn:S1.
    + apply strip_prefix_some in S1. subst p. left. exists q. left. reflexivity.
    + right. intros x [E|(r & R & E)]; [apply app_inv_head in E; exact (strip_prefix_none _ _ S1 x E)|exact (rem_not _ _ _ R (eq_sym E))].
  - destruct (ustr_eqb (ascii_lower (firstn 4 l)) (u "rem ")) eqn:R; [apply ustr_eqb_eq in R; destruct (strip_prefix (u "endbasic cli: ") (skipn 4 l)) as [q|] eqn:S1|].
    + apply strip_prefix_some in S1. left. exists q. right. exists (firstn 4 l). split; [exact R|]. rewrite <- S1. symmetry. apply firstn_skipn.
    + right. intros x [E|(r & R' & E)]; [exact (strip_prefix_none _ _ S0 _ E)|]. apply (strip_prefix_none _ _ S1 x). subst l.
      rewrite <- (rem_length _ R'), skipn_app, skipn_all, Nat.sub_diag. reflexivity.
    + right. intros x [E|(r & R' & E)]; [exact (strip_prefix_none _ _ S0 _ E)|]. subst l.
      rewrite <- (rem_length _ R'), firstn_app, firstn_all, Nat.sub_diag in R. cbn [firstn] in R. rewrite app_nil_r, R', ustr_eqb_refl in R. discriminate R.
Qed.
