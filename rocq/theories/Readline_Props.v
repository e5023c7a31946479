(** C37, C38, C39: reading a line from the console. *)
From Coq Require Import String.
From Verif Require Import Base Readline_Model Readline_Spec Readline_Proofs.
Local Open Scope string_scope.
Local Open Scope nat_scope.
Local Open Scope list_scope.

(** Whatever keys are pressed, the reader returns the line, the error, the cursor and the history
    of the simple editor, after the same number of keys. *)
Theorem C37_line_editing : forall width prompt previous history echo keys o rest ops,
  read_line_interactive width prompt previous history echo keys = Some (o, rest, ops) ->
  let (t, rest') := typing (has_room width (utf8_len prompt))
                      (opened previous match history with Some h => h | None => [] end) keys in
  rest = rest' /\ entered_as history o t.
Proof.
  intros width prompt previous history echo keys o rest ops. unfold read_line_interactive.
  destruct (new_reader width prompt previous history echo) as [[r ops0]|] eqn:E; [|discriminate].
  apply new_reader_rel in E. destruct E as [R W]. pose proof (run_fate _ keys _ _ R) as F.
  destruct (run r keys) as [[o' rest'] ops']. intros [= <- <- _]. rewrite W in F. unfold the_history in F.
  destruct (typing _ _ keys) as [t rest]. destruct F as [-> F]. split; [reflexivity|].
  unfold fate in F. unfold entered_as. destruct history; exact F.
Qed.
Print Assumptions C37_line_editing.

Example C37_line_editing_case :
  exists ops, read_line_interactive 8 (u "> ") (u "abc") (Some [u "old"]) true
    [KHome; KChar 120; KArrowRight; KDelete; KEnd; KChar 121; KChar 122; KChar 33; KNewLine; KTab]%N
  = Some (Entered (u "xacyz!") (Some [u "old"; u "xacyz!"]), [KTab], ops).
Proof. eexists. vm_compute. reflexivity. Qed.

(** Reading never panics while prompts have one byte per character... *)
Theorem C37_no_panic : forall width prompt previous history echo keys, one_byte prompt ->
  read_line_interactive width prompt previous history echo keys <> None.
Proof.
  intros width prompt previous history echo keys A. unfold read_line_interactive, new_reader.
  destruct (fit_prompt_shown width prompt A) as [-> _]. destruct history; destruct (run _ keys) as [[? ?] ?]; discriminate.
Qed.
Print Assumptions C37_no_panic.

Example C37_no_panic_case : one_byte (u "Enter a number: ") /\ shown_prompt 9 (u "Enter a number: ") = u "Ente...".
Proof. split; [|vm_compute; reflexivity]. intros c C. repeat (destruct C as [<-|C]; [reflexivity|]). destruct C. Qed.

(** ... but a prompt that does not fit is cut by bytes. *)
Theorem C37_prompt_panic_refuted : exists width prompt, forall previous history echo keys,
  read_line_interactive width prompt previous history echo keys = None.
Proof. exists 6, [233; 233; 233]%N. intros. reflexivity. Qed.
Print Assumptions C37_prompt_panic_refuted.

(** Input that is not interactive is typed text where only erasing the last character counts. *)
Theorem C37_raw : forall keys, ~ In KEofOrDelete keys ->
  let (o, rest) := read_line_raw [] keys in
  let (t, rest') := typing true (opened [] []) (flat_map plain keys) in
  raw_as o t /\ flat_map plain rest = rest'.
Proof. intros keys NE. exact (raw_typing keys NE (opened [] []) [] eq_refl eq_refl). Qed.
Print Assumptions C37_raw.

Example C37_raw_case :
  read_line_raw [] [KChar 97; KUnknown; KArrowLeft; KBackspace; KChar 98; KNewLine; KChar 99]%N
  = (RawLine (u "ab"), [KChar 99%N]).
Proof. reflexivity. Qed.

(** ... until the input ends, which loses the unfinished line. *)
Theorem C37_raw_eof : forall keys rest, Forall goes_on keys ->
  read_line_raw [] (keys ++ KEofOrDelete :: rest) = (RawEof, rest).
Proof.
  intros keys rest. generalize (@nil N) as l. induction keys as [|k keys IH]; intros l F; [reflexivity|].
  inversion F as [|? ? K F' E]. subst. destruct k; cbn [goes_on] in K; try contradiction; cbn [app read_line_raw]; apply IH, F'.
Qed.
Print Assumptions C37_raw_eof.

Example C37_raw_eof_case : read_line_raw [] [KChar 97; KEofOrDelete; KTab]%N = (RawEof, [KTab]).
Proof. reflexivity. Qed.

(** The choice among the readers. *)
Theorem C37_choice : forall width prompt previous history keys,
  read_line true width prompt previous history keys
    = Typed (read_line_interactive width prompt previous history true keys) /\
  read_line false width prompt previous history keys = Raw (read_line_raw [] keys) /\
  read_line_secure true width prompt keys
    = Typed (read_line_interactive width prompt [] None false keys) /\
  read_line_secure false width prompt keys = SecureRaw.
Proof. repeat split. Qed.
Print Assumptions C37_choice.

Example C37_choice_case : read_line_secure false 80 (u "Password: ") [KChar 97; KNewLine]%N = SecureRaw.
Proof. reflexivity. Qed.

(** While the line is being edited, the operations asked of the console never take the cursor out of
    its row, and leave the prompt, the part of the line around the cursor, and the cursor shown at
    its place. *)
Theorem C38_screen : forall width prompt previous history echo keys r rest ops,
  one_byte prompt ->
  length (shown_prompt width prompt) + 1 < width -> (Z.of_nat width <= 32768)%Z ->
  read_line_interactive width prompt previous history echo keys = Some (Waiting r, rest, ops) ->
  exists e w,
    typing true (opened previous match history with Some h => h | None => [] end) keys = (More e, []) /\
    draw width blank_row ops = Some w /\
    row_shows width (shown_prompt width prompt) echo e w.
Proof.
  intros width prompt previous history echo keys r rest ops A Ro I. unfold read_line_interactive.
  destruct (new_reader width prompt previous history echo) as [[r0 ops0]|] eqn:E; [|discriminate].
  pose proof (new_reader_row _ _ _ _ _ _ _ A Ro I E) as (Ec & Wi & w0 & D0 & On0).
  apply new_reader_rel in E. destruct E as [R W]. pose proof (run_fate _ keys _ _ R) as F.
  assert (W1 : (0 <? r_width r0) = true) by (apply Nat.ltb_lt; lia). rewrite W1 in F.
  destruct (run r0 keys) as [[o rest'] ops'] eqn:Ru. intros X.
  assert (o = Waiting r) as -> by congruence. assert (ops = ops0 ++ ops') as -> by congruence.
  destruct (run_row _ _ _ _ _ _ _ _ On0 Ru) as (w & D & On). apply run_fields in Ru.
  change (match history with Some h => h | None => [] end) with (the_history history).
  destruct (typing true (opened previous (the_history history)) keys) as [t rest''] eqn:T.
  destruct F as [-> F]. destruct t as [e|e|e|e]; try contradiction. cbn in F. destruct F as (L & P & _).
  pose proof (typing_app true keys _ [] _ _ T) as [-> _].
  exists e, w. split; [reflexivity|]. split; [rewrite draw_app, D0; exact D|].
  destruct On as [G (S1 & C1 & V1)]. destruct G as (G1 & G2 & G3 & G4 & _).
  destruct Ru as [Ec' Wi']. exists (r_view r). rewrite <- P, <- L. split; [lia|].
  split; [|split; [exact C1|]; split; [lia|exact V1]].
  unfold window in S1. rewrite Ec', Wi', Wi, Ec in S1. exact S1.
Qed.
Print Assumptions C38_screen.

Example C38_screen_case :
  exists r rest ops w,
    read_line_interactive 8 (u "> ") (u "abc") (Some [u "older line"]) true
      [KArrowUp; KHome; KChar 120; KArrowRight; KEnd; KBackspace]%N = Some (Waiting r, rest, ops) /\
    draw 8 blank_row ops = Some w /\ map (cell w) (seq 0 8) = u ">  lin  " /\ column w = 6.
Proof. do 4 eexists. split; [vm_compute; reflexivity|]. split; [vm_compute; reflexivity|]. split; vm_compute; reflexivity. Qed.

(** Without room for the text, moving around goes over the prompt. *)
Theorem C38_no_room_refuted : exists width prompt previous keys r rest ops e,
  read_line_interactive width prompt previous None true keys = Some (Waiting r, rest, ops) /\
  typing false (opened previous []) keys = (More e, []) /\
  forall w, draw width blank_row ops = Some w -> ~ row_shows width prompt true e w.
Proof.
  exists 4, (u "abc"), (u "x"), [KHome]. do 4 eexists. split; [vm_compute; reflexivity|].
  split; [vm_compute; reflexivity|]. intros w D (view & V & _ & C & _).
  apply (f_equal (option_map column)) in D. cbn [option_map] in D. rewrite C in D.
  vm_compute in D. discriminate D.
Qed.
Print Assumptions C38_no_room_refuted.

(** What the console is asked to show of a password depends only on which keys were not characters. *)
Theorem C38_secure : forall width prompt keys keys' o rest ops o' rest' ops',
  Forall2 same_shape keys keys' ->
  read_line_secure true width prompt keys = Typed (Some (o, rest, ops)) ->
  read_line_secure true width prompt keys' = Typed (Some (o', rest', ops')) -> ops = ops'.
Proof.
  intros width prompt keys keys' o rest ops o' rest' ops' SS. cbn [read_line_secure].
  unfold read_line_interactive. destruct (new_reader width prompt [] None false) as [[r ops0]|] eqn:E; [|discriminate].
  assert (AL : alike r r).
  { unfold new_reader in E. destruct (fit_prompt width prompt); [|discriminate]. injection E as <- _.
    unfold alike. cbn. repeat split; auto. }
  pose proof (run_alike keys keys' SS r r AL) as X.
  destruct (run r keys) as [[a b] c], (run r keys') as [[a' b'] c']. cbn [snd] in X. subst c'.
  intros H H'. congruence.
Qed.
Print Assumptions C38_secure.

Example C38_secure_case :
  exists o rest ops, read_line_secure true 20 (u "Password: ") [KChar 97; KChar 98; KNewLine]%N
    = Typed (Some (o, rest, ops)) /\
  ops = [CWrite (u "Password: "); CSync; CWrite (u "*"); CWrite (u "*"); CPrint []] /\
  o = Entered (u "ab") None.
Proof. do 3 eexists. split; [vm_compute; reflexivity|]. split; vm_compute; reflexivity. Qed.

(** An entered line goes to the end of the history, unless it is empty. *)
Theorem C39_entered : forall width prompt previous h echo keys line h' rest ops,
  read_line_interactive width prompt previous (Some h) echo keys = Some (Entered line h', rest, ops) ->
  exists p, length p = length h /\ h' = Some (match line with [] => p | _ => p ++ [line] end).
Proof.
  intros width prompt previous h echo keys line h' rest ops E. apply C37_line_editing in E.
  destruct (typing _ _ keys) as [t rest'] eqn:T. destruct E as [_ E]. apply typing_length in T.
  destruct T as (e & T & L). destruct t as [e'|e'|e'|e']; try contradiction. cbn in E. destruct E as [-> ->].
  assert (e' = e) as -> by (destruct T as [T|[T|[T|T]]]; congruence).
  exists (removelast (entries e)). split.
  - destruct (last_split _ (entries_ne e)) as [m [x X]]. rewrite X in *. rewrite removelast_app1.
    revert L. unfold opened, entries. cbn [older here newer]. rewrite rev_involutive, !app_length. cbn. lia.
  - unfold remembered. destruct (text_of e); [rewrite app_nil_r|]; reflexivity.
Qed.
Print Assumptions C39_entered.

Example C39_entered_case :
  exists ops, read_line_interactive 80 [] [] (Some [u "one"; u "two"]) true
    [KArrowUp; KArrowUp; KChar 33; KNewLine]%N
  = Some (Entered (u "one!") (Some [u "one"; u "two"; u "one!"]), [], ops).
Proof. eexists. vm_compute. reflexivity. Qed.

(** Looking around in the history changes nothing of it: the line entered is one of its entries,
    or the text offered at first, and is the only addition. *)
Theorem C39_browsing : forall width prompt previous h echo keys line h' rest ops,
  Forall only_moves keys ->
  read_line_interactive width prompt previous (Some h) echo keys = Some (Entered line h', rest, ops) ->
  In line (h ++ [previous]) /\ h' = Some (match line with [] => h | _ => h ++ [line] end).
Proof.
  intros width prompt previous h echo keys line h' rest ops M E. apply C37_line_editing in E.
  destruct (typing _ _ keys) as [t rest'] eqn:T. destruct E as [_ E].
  apply moves_keep in T; [|exact M|].
  2: { unfold opened, text_of. cbn [before after here]. rewrite rev_involutive. apply app_nil_r. }
  destruct T as (e & T & L & H). destruct t as [e'|e'|e'|e']; try contradiction. cbn in E. destruct E as [-> ->].
  assert (e' = e) as -> by (destruct T as [T|[T|T]]; congruence).
  assert (EO : entries (opened previous h) = h ++ [previous])
    by (unfold opened, entries; cbn [older here newer]; now rewrite rev_involutive).
  split.
  - rewrite <- EO, <- L, H. unfold entries. apply in_app_iff. right. left. reflexivity.
  - unfold remembered. rewrite L, EO, removelast_app1. destruct (text_of e); [rewrite app_nil_r|]; reflexivity.
Qed.
Print Assumptions C39_browsing.

Example C39_browsing_case : exists ops, Forall only_moves [KArrowUp; KHome; KArrowUp; KArrowDown; KNewLine] /\
  read_line_interactive 80 [] [] (Some [u "one"; u "two"]) true [KArrowUp; KHome; KArrowUp; KArrowDown; KNewLine]
  = Some (Entered (u "two") (Some [u "one"; u "two"; u "two"]), [], ops).
Proof. eexists. split; [repeat constructor|vm_compute; reflexivity]. Qed.

(** The up key pressed n times shows the n-th newest entry, with the cursor at its end. *)
Theorem C39_up : forall width prompt previous h echo n r rest ops, 0 < n <= length h ->
  read_line_interactive width prompt previous (Some h) echo (repeat KArrowUp n) = Some (Waiting r, rest, ops) ->
  nth_error h (length h - n) = Some (r_line r) /\ r_pos r = length (r_line r).
Proof.
  intros width prompt previous h echo n r rest ops B E. apply C37_line_editing in E.
  set (room := has_room _ _) in E.
  destruct (ups room n (opened previous h)) as (e & T & _ & X).
  { cbn. rewrite rev_length. lia. }
  rewrite T in E. destruct E as [_ E]. cbn [entered_as] in E. destruct E as (-> & -> & _).
  destruct X as [X Y]; [lia|]. unfold text_of at 2. rewrite Y, app_nil_r, rev_length. split; [|reflexivity].
  cbn [opened older] in X. rewrite <- X.
  rewrite <- (rev_involutive h) at 1. generalize (rev_length h). set (k := rev h).
  intros K. rewrite <- K in *. clear - B.
  destruct (nth_error k (n - 1)) as [x|] eqn:N; [|apply nth_error_None in N; lia].
  apply nth_error_split in N. destruct N as (a & b & -> & L). rewrite rev_app_distr. cbn [rev].
  rewrite <- app_assoc. rewrite nth_error_app2; rewrite rev_length, app_length; cbn [length]; [|lia].
  replace (length a + S (length b) - n - length b) with 0 by lia. reflexivity.
Qed.
Print Assumptions C39_up.

Example C39_up_case : exists r rest ops,
  read_line_interactive 80 [] [] (Some [u "one"; u "two"]) true (repeat KArrowUp 2) = Some (Waiting r, rest, ops)
  /\ r_line r = u "one".
Proof. do 3 eexists. split; vm_compute; reflexivity. Qed.

(** Edits survive moving to an older entry and back. *)
Theorem C39_edits_kept : forall width prompt previous h echo keys e r rest ops,
  let room := has_room width (utf8_len prompt) in
  typing room (opened previous h) keys = (More e, []) -> older e <> [] ->
  read_line_interactive width prompt previous (Some h) echo (keys ++ [KArrowUp; KArrowDown])
    = Some (Waiting r, rest, ops) ->
  r_line r = text_of e /\ r_pos r = length (text_of e) /\ r_history r = Some (rev (older e) ++ text_of e :: newer e).
Proof.
  intros width prompt previous h echo keys e r rest ops room T O E. apply C37_line_editing in E. fold room in E.
  destruct (typing_app room keys _ [KArrowUp; KArrowDown] _ _ T) as [_ T']. rewrite T' in E.
  cbn [typing edit] in E. destruct (older e) as [|o os] eqn:Oe; [contradiction|].
  cbn [newer] in E. destruct E as [_ E]. cbn [entered_as option_map] in E. destruct E as (-> & -> & ->).
  unfold text_of, entries. cbn [before after older here newer].
  rewrite rev_involutive, app_nil_r, rev_length, rev_involutive, app_nil_r.
  split; [reflexivity|]. split; [reflexivity|]. reflexivity.
Qed.
Print Assumptions C39_edits_kept.

Example C39_edits_kept_case : exists r rest ops,
  read_line_interactive 80 [] [] (Some [u "one"; u "two"]) true [KArrowUp; KChar 33; KArrowUp; KArrowDown]%N
    = Some (Waiting r, rest, ops) /\ r_line r = u "two!" /\ r_history r = Some [u "one"; u "two!"; []].
Proof. do 3 eexists. split; [vm_compute; reflexivity|]. split; vm_compute; reflexivity. Qed.

(** A line that is given up leaves an entry behind. *)
Theorem C39_interrupted : forall width h, exists o ops,
  read_line_interactive width [] [] (Some h) true [KInterrupt] = Some (o, [], ops) /\
  o = Interrupted (Some (h ++ [[]])).
Proof.
  intros width h. unfold read_line_interactive, new_reader, fit_prompt. cbn [utf8_len].
  destruct (0 <? width) eqn:E; [|destruct (5 <=? width) eqn:F].
  - do 2 eexists. split; reflexivity.
  - apply Nat.ltb_ge in E. apply Nat.leb_le in F. lia.
  - do 2 eexists. split; reflexivity.
Qed.
Print Assumptions C39_interrupted.

Example C39_interrupted_case : exists ops,
  read_line_interactive 80 (u "> ") [] (Some [u "one"]) true [KChar 97; KInterrupt]%N
  = Some (Interrupted (Some [u "one"; []]), [], ops).
Proof. eexists. vm_compute. reflexivity. Qed.

Theorem C39_interrupted_refuted : exists width h keys h' rest ops,
  read_line_interactive width [] [] (Some h) true keys = Some (Interrupted h', rest, ops) /\ h' <> Some h.
Proof.
  destruct (C39_interrupted 80 []) as (o & ops & E & ->). exists 80, [], [KInterrupt], (Some [[]]), [], ops.
  split; [exact E|discriminate].
Qed.
Print Assumptions C39_interrupted_refuted.
