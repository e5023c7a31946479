(** Lemmas about the line reader. *)
From Verif Require Import Base Readline_Model Readline_Spec.
Local Open Scope nat_scope.
Local Open Scope list_scope.

Lemma firstn_length_app {A} (l m : list A) n : n = length l -> firstn n (l ++ m) = l.
Proof. intros ->. rewrite firstn_app, Nat.sub_diag, firstn_all, app_nil_r. reflexivity. Qed.

Lemma skipn_length_app {A} (l m : list A) n : n = length l -> skipn n (l ++ m) = m.
Proof. intros ->. rewrite skipn_app, Nat.sub_diag, skipn_all. reflexivity. Qed.

Lemma upd_app {A} (l m : list A) x y n : n = length l -> upd (l ++ x :: m) n y = l ++ y :: m.
Proof. intros ->. induction l as [|a l IH]; cbn [upd app length]; [reflexivity|now rewrite IH]. Qed.

Lemma removelast_app1 {A} (l : list A) x : removelast (l ++ [x]) = l.
Proof. rewrite removelast_app by discriminate. cbn [removelast]. apply app_nil_r. Qed.

Lemma last_split {A} (l : list A) : l <> [] -> exists m x, l = m ++ [x].
Proof. intros H. destruct (exists_last H) as [m [x ->]]. eauto. Qed.

(** * The reader is the editor *)

Definition rel (hist : bool) (r : reader) (e : editor) : Prop :=
  r_line r = text_of e /\ r_pos r = length (before e) /\
  (if hist
   then r_history r = Some (entries e) /\ r_history_pos r = length (older e)
   else r_history r = None /\ older e = [] /\ newer e = []).

Definition goes (hist room : bool) (e : editor) (k : key) (st : step) : Prop :=
  let '(d, r', _) := st in
  match k with
  | KNewLine | KCarriageReturn => d = DSubmit /\ rel hist r' e
  | KInterrupt => d = DInterrupt /\ rel hist r' e
  | KEofOrDelete =>
    match text_of e with
    | [] => d = DEof /\ rel hist r' e
    | _ => d = DContinue /\ rel hist r' (edit room e k)
    end
  | _ => d = DContinue /\ rel hist r' (edit room e k)
  end.

Lemma remove_at_next (l : ustr) c a n : n = length l -> remove_at (l ++ c :: a) n = l ++ a.
Proof.
  intros ->. unfold remove_at. rewrite firstn_length_app by reflexivity. f_equal.
  rewrite skipn_app. rewrite skipn_all2 by lia.
  replace (length l + 1 - length l) with 1 by lia. reflexivity.
Qed.

Lemma insert_at_here (l a : ustr) c n : n = length l -> insert_at (l ++ a) n c = l ++ c :: a.
Proof.
  intros H. unfold insert_at. rewrite firstn_length_app, skipn_length_app by exact H. reflexivity.
Qed.

(** A state that only differs in what is drawn. *)
Lemma rel_fields hist r r' e e' : rel hist r e ->
  r_line r' = text_of e' -> r_pos r' = length (before e') ->
  r_history r' = r_history r -> r_history_pos r' = r_history_pos r ->
  older e' = older e -> newer e' = newer e -> here e' = here e -> rel hist r' e'.
Proof.
  intros (L & P & H) L' P' A B C D E. unfold rel. rewrite A, B, C, D, L', P'.
  unfold entries in *. rewrite C, D, E. auto.
Qed.

Ltac ed := match goal with e : editor |- _ => destruct e as [b a o h nw] end.

Lemma text_length e : length (text_of e) = length (before e) + length (after e).
Proof. unfold text_of. rewrite app_length, rev_length. reflexivity. Qed.

Lemma goes_delete hist e r : rel hist r e ->
  let '(d, r', _) := do_delete r in d = DContinue /\ rel hist r' (erase_next e).
Proof.
  intros R. pose proof R as (L & P & H). unfold do_delete.
  rewrite L, P, text_length. destruct (after e) as [|c a] eqn:A.
  - rewrite (proj2 (Nat.leb_le _ _)) by (cbn [length]; lia). unfold erase_next. rewrite A. auto.
  - rewrite (proj2 (Nat.leb_gt _ _)) by (cbn [length]; lia).
    assert (X : remove_at (text_of e) (length (before e)) = text_of (erase_next e)).
    { unfold text_of, erase_next. rewrite A. cbn [before after put].
      apply remove_at_next. rewrite rev_length. reflexivity. }
    assert (Y : forall r', r_line r' = remove_at (text_of e) (length (before e)) ->
              r_pos r' = length (before e) -> r_history r' = r_history r ->
              r_history_pos r' = r_history_pos r -> rel hist r' (erase_next e)).
    { intros r' L' P' H' N'. rewrite X in L'.
      eapply rel_fields; eauto; unfold erase_next; rewrite A; reflexivity || exact P'. }
    destruct (_ && _).
    + unfold erase_at. split; [reflexivity|]. apply Y; cbn; rewrite ?L; reflexivity.
    + split; [reflexivity|]. apply Y; cbn; reflexivity.
Qed.

Lemma goes_move hist e r n b a : rel hist r e -> text_of (put e b a) = text_of e -> n = length b ->
  let '(d, r', _) := do_move_to r n in d = DContinue /\ rel hist r' (put e b a).
Proof.
  intros R T ->. pose proof R as (L & P & H). unfold do_move_to.
  assert (Y : forall r', r_line r' = r_line r ->
              r_pos r' = length b -> r_history r' = r_history r ->
              r_history_pos r' = r_history_pos r -> rel hist r' (put e b a)).
  { intros r' L' P' H' N'. eapply rel_fields; eauto. congruence. }
  destruct (_ =? _) eqn:E.
  - apply Nat.eqb_eq in E. split; [reflexivity|]. apply Y; auto.
  - destruct (_ =? r_view r); (split; [reflexivity|]); apply Y; reflexivity.
Qed.

Lemma goes_char hist e r c : rel hist r e ->
  let '(d, r', _) := do_char r c in d = DContinue /\ rel hist r' (edit (0 <? r_width r) e (KChar c)).
Proof.
  intros R. pose proof R as (L & P & H). unfold do_char.
  destruct (r_width r =? 0) eqn:W.
  - apply Nat.eqb_eq in W. rewrite W. cbn. auto.
  - apply Nat.eqb_neq in W. cbn [edit].
    assert (W' : (0 <? r_width r) = true) by (apply Nat.ltb_lt; lia). rewrite W'.
    assert (X : insert_at (text_of e) (length (before e)) c = text_of (put e (c :: before e) (after e))).
    { unfold text_of. cbn [before after put rev]. rewrite <- app_assoc. cbn [app].
      apply insert_at_here. rewrite rev_length. reflexivity. }
    assert (Y : forall r', r_line r' = insert_at (text_of e) (length (before e)) c ->
              r_pos r' = S (length (before e)) -> r_history r' = r_history r ->
              r_history_pos r' = r_history_pos r -> rel hist r' (put e (c :: before e) (after e))).
    { intros r' L' P' H' N'. rewrite X in L'. eapply rel_fields; eauto. }
    destruct ((_ =? _) && (_ <? _)); [destruct (r_pos r <? length (r_line r)) eqn:Q|].
    + split; [reflexivity|]. apply Y; cbn; rewrite ?L, ?P; lia || reflexivity.
    + split; [reflexivity|]. apply Nat.ltb_ge in Q.
      assert (Z : length (r_line r) = length (before e)) by (rewrite P, L, text_length in Q; rewrite L, text_length; lia).
      rewrite Z. apply Y; cbn; rewrite ?L, ?P; lia || reflexivity.
    + split; [reflexivity|]. apply Y; cbn; rewrite ?L, ?P; lia || reflexivity.
Qed.

Lemma goes_backspace hist e r : rel hist r e ->
  let '(d, r', _) := do_backspace r in d = DContinue /\ rel hist r' (edit true e KBackspace).
Proof.
  intros R. pose proof R as (L & P & H). unfold do_backspace. rewrite P. cbn [edit].
  destruct (before e) as [|c b] eqn:B; cbn [length].
  - cbn. auto.
  - change (S (length b) =? 0) with false. cbn [andb].
    replace (S (length b) - 1) with (length b) by lia.
    assert (X : remove_at (text_of e) (length b) = text_of (put e b (after e))).
    { unfold text_of. rewrite B. cbn [before after put rev]. rewrite <- app_assoc. cbn [app].
      apply remove_at_next. rewrite rev_length. reflexivity. }
    assert (Y : forall r', r_line r' = remove_at (text_of e) (length b) ->
              r_pos r' = length b -> r_history r' = r_history r ->
              r_history_pos r' = r_history_pos r -> rel hist r' (put e b (after e))).
    { intros r' L' P' H' N'. rewrite X in L'. eapply rel_fields; eauto. }
    destruct (_ && _).
    + unfold erase_at. split; [reflexivity|]. apply Y; cbn; rewrite ?L; reflexivity.
    + split; [reflexivity|]. apply Y; cbn; rewrite ?L; reflexivity.
Qed.

Lemma nth_middle' {A} (l m : list A) x n d : n = length l -> nth n (l ++ x :: m) d = x.
Proof. intros ->. apply nth_middle. Qed.

Lemma goes_up hist e r : rel hist r e ->
  let '(d, r', _) := do_up_down r true in d = DContinue /\ rel hist r' (edit true e KArrowUp).
Proof.
  intros R. pose proof R as (L & P & H). unfold do_up_down. destruct hist; destruct H as [H N'].
  - rewrite H, N'. destruct e as [b a os h nw]. cbn [edit older newer]. cbn [older] in *.
    destruct os as [|o os]; cbn [length].
    + cbn. auto.
    + change (S (length os) =? 0) with false.
      replace (S (length os) - 1) with (length os) by lia. split; [reflexivity|].
      unfold entries. cbn [older here newer rev]. rewrite <- app_assoc. cbn [app].
      assert (X : forall t, upd (rev os ++ o :: h :: nw) (S (length os)) t = rev os ++ o :: t :: nw).
      { intros t. pose proof (upd_app (rev os ++ [o]) nw h t (S (length os))) as U.
        rewrite <- !app_assoc in U. apply U. rewrite app_length, rev_length. cbn. lia. }
      rewrite X. rewrite nth_middle' by (rewrite rev_length; reflexivity).
      unfold rel, reset_view_to_end, sync_rendered, with_line.
      cbn [r_line r_pos r_history r_history_pos before after older here newer].
      unfold text_of, entries. cbn [before after older here newer].
      rewrite rev_involutive, app_nil_r, rev_length, L. auto.
  - rewrite H. destruct N' as [O _]. cbn [edit]. rewrite O. auto.
Qed.

Lemma goes_down hist e r : rel hist r e ->
  let '(d, r', _) := do_up_down r false in d = DContinue /\ rel hist r' (edit true e KArrowDown).
Proof.
  intros R. pose proof R as (L & P & H). unfold do_up_down. destruct hist; destruct H as [H N'].
  - rewrite H, N'. destruct e as [b a os h nw]. cbn [edit older newer]. cbn [older] in *.
    unfold entries. cbn [older here newer]. rewrite app_length, rev_length. cbn [length].
    destruct nw as [|n nw]; cbn [length].
    + rewrite (proj2 (Nat.eqb_eq _ _)) by lia. auto.
    + rewrite (proj2 (Nat.eqb_neq _ _)) by lia. split; [reflexivity|].
      rewrite upd_app by (rewrite rev_length; reflexivity).
      assert (X : forall t, nth (length os + 1) (rev os ++ t :: n :: nw) [] = n).
      { intros t. pose proof (nth_middle' (rev os ++ [t]) nw n (length os + 1) []) as U.
        rewrite <- app_assoc in U. apply U. rewrite app_length, rev_length. cbn. lia. }
      rewrite X. unfold rel, reset_view_to_end, sync_rendered, with_line.
      cbn [r_line r_pos r_history r_history_pos before after older here newer].
      unfold text_of, entries. cbn [before after older here newer].
      rewrite rev_involutive, app_nil_r, rev_length, L. cbn [rev length].
      rewrite <- app_assoc. cbn [app].
      assert (Q : length os + 1 = S (length os)) by lia. rewrite Q. auto.
  - rewrite H. destruct N' as [_ O]. cbn [edit]. rewrite O. auto.
Qed.

Lemma put_same e : put e (before e) (after e) = e.
Proof. destruct e. reflexivity. Qed.

Lemma press_goes hist e r k : rel hist r e -> goes hist (0 <? r_width r) e k (press r k).
Proof.
  intros R. pose proof R as (L & P & H). unfold goes, press. destruct k; try (cbn; auto; fail).
  - exact (goes_down _ _ _ R).
  - cbn [edit]. rewrite P. destruct (before e) as [|c b] eqn:B; cbn [length].
    + unfold do_move_to. rewrite P. cbn. auto.
    + replace (S (length b) - 1) with (length b) by lia. apply goes_move; auto.
      unfold text_of. rewrite B. cbn [before after put rev]. rewrite <- app_assoc. reflexivity.
  - cbn [edit]. rewrite P, L, text_length. destruct (after e) as [|c a] eqn:A; cbn [length].
    + replace (min (length (before e) + 1) (length (before e) + 0)) with (length (before e)) by lia.
      unfold do_move_to. rewrite P, Nat.eqb_refl. auto.
    + apply goes_move; auto.
      * unfold text_of. rewrite A. cbn [before after put rev]. rewrite <- app_assoc. reflexivity.
      * cbn [length]. lia.
  - exact (goes_up _ _ _ R).
  - exact (goes_backspace _ _ _ R).
  - exact (goes_char _ _ _ c R).
  - exact (goes_delete _ _ _ R).
  - cbn [edit]. unfold do_end. rewrite L. apply goes_move; auto.
    + unfold text_of. cbn [before after put]. rewrite rev_involutive, app_nil_r. reflexivity.
    + rewrite rev_length. reflexivity.
  - unfold do_eof_or_delete. rewrite L. destruct (text_of e) eqn:T.
    + auto.
    + exact (goes_delete _ _ _ R).
  - cbn [edit]. unfold do_home. apply goes_move; auto.
Qed.

Lemma press_width r k : r_width (snd (fst (press r k))) = r_width r.
Proof.
  unfold press, do_up_down, do_move_to, do_backspace, do_newline, do_char, do_delete, do_end,
    do_eof_or_delete, do_ignore, do_home, do_interrupt, do_move_to, do_delete, erase_at, reset_view_to_end.
  destruct k; try reflexivity;
    repeat (match goal with |- context [match ?x with _ => _ end] => destruct x end; try reflexivity).
Qed.

Definition fate (hist : bool) (o : reading) (t : typed) : Prop :=
  match o, t with
  | Entered line h, Line e => line = text_of e /\ h = if hist then Some (remembered e) else None
  | AtEof h, Eof e | Interrupted h, Stopped e => h = if hist then Some (entries e) else None
  | Waiting r, More e =>
    r_line r = text_of e /\ r_pos r = length (before e) /\
    r_history r = if hist then Some (entries e) else None
  | _, _ => False
  end.

Lemma entries_ne e : entries e <> [].
Proof. unfold entries. destruct (rev (older e)); discriminate. Qed.

Lemma finish_fate hist r e : rel hist r e ->
  let (l, h) := finish r in fate hist (Entered l h) (Line e).
Proof.
  intros (L & P & H). unfold finish, fate. split; [exact L|]. destruct hist; destruct H as [H _]; rewrite H.
  - f_equal. rewrite L. unfold remembered. destruct (last_split _ (entries_ne e)) as [m [x E]].
    rewrite E, removelast_app1. destruct (text_of e) as [|c s].
    + rewrite app_nil_r. reflexivity.
    + apply upd_app. rewrite app_length. cbn. lia.
  - reflexivity.
Qed.

Lemma rel_history hist r e : rel hist r e -> r_history r = if hist then Some (entries e) else None.
Proof. intros (L & P & H). destruct hist; apply H. Qed.

Lemma run_fate hist keys : forall r e, rel hist r e ->
  let '(o, rest, _) := run r keys in
  let (t, rest') := typing (0 <? r_width r) e keys in rest = rest' /\ fate hist o t.
Proof.
  induction keys as [|k keys IH]; intros r e R.
  - cbn. split; [reflexivity|]. split; [apply R|]. split; [apply R|]. apply rel_history, R.
  - cbn [run]. pose proof (press_goes hist e r k R) as G. pose proof (press_width r k) as W.
    destruct (press r k) as [[d r'] ops]. unfold goes in G. cbn [snd fst] in W.
    assert (X : d = DContinue /\ rel hist r' (edit (0 <? r_width r) e k) ->
      let '(o, rest, _) :=
        match d with
        | DContinue => let '(o, rest, ops') := run r' keys in (o, rest, ops ++ ops')
        | DSubmit => let (line, history) := finish r' in (Entered line history, keys, ops)
        | DEof => (AtEof (r_history r'), keys, ops)
        | DInterrupt => (Interrupted (r_history r'), keys, ops)
        end in
      let (t, rest') := typing (0 <? r_width r) (edit (0 <? r_width r) e k) keys in
      rest = rest' /\ fate hist o t).
    { intros [-> R']. specialize (IH _ _ R'). rewrite W in IH.
      destruct (run r' keys) as [[o rest] ops']. exact IH. }
    cbn [typing]. destruct k; try (exact (X G)).
    + destruct G as [-> G]. pose proof (finish_fate _ _ _ G). destruct (finish r'). auto.
    + destruct (text_of e) eqn:T; [|exact (X G)]. destruct G as [-> G].
      split; [reflexivity|]. cbn. apply (rel_history hist _ e), G.
    + destruct G as [-> G]. split; [reflexivity|]. cbn. apply (rel_history hist _ e), G.
    + destruct G as [-> G]. pose proof (finish_fate _ _ _ G). destruct (finish r'). auto.
Qed.

(** * How reading starts *)

Lemma utf8_len_app s t : utf8_len (s ++ t) = utf8_len s + utf8_len t.
Proof. induction s as [|c s IH]; cbn [utf8_len app]; [reflexivity|]. rewrite IH. lia. Qed.

Lemma byte_prefix_len n s p : byte_prefix n s = Some p -> utf8_len p = n.
Proof.
  revert n p. induction s as [|c s IH]; intros n p; cbn [byte_prefix].
  - destruct (n =? 0) eqn:E; [|discriminate]. apply Nat.eqb_eq in E. intros [= <-]. symmetry. exact E.
  - destruct (n =? 0) eqn:E. { apply Nat.eqb_eq in E. intros [= <-]. symmetry. exact E. }
    destruct (utf8_len1 c <=? n) eqn:F; [|discriminate]. apply Nat.leb_le in F.
    destruct (byte_prefix _ s) eqn:G; [|discriminate]. cbn [option_map]. intros [= <-].
    apply IH in G. cbn [utf8_len]. rewrite G. lia.
Qed.

Lemma fit_prompt_room width prompt p : fit_prompt width prompt = Some p ->
  (0 <? width - utf8_len p - 1) = has_room width (utf8_len prompt).
Proof.
  unfold fit_prompt, has_room. destruct (utf8_len prompt <? width) eqn:E.
  - intros [= <-]. apply Nat.ltb_lt in E. apply eq_true_iff_eq. rewrite Nat.ltb_lt, Nat.leb_le. lia.
  - destruct (5 <=? width) eqn:F.
    + destruct (byte_prefix _ _) eqn:B; [|discriminate]. cbn [option_map]. intros [= <-].
      apply byte_prefix_len in B. rewrite utf8_len_app, B. change (utf8_len [46; 46; 46]%N) with 3. apply Nat.leb_le in F.
      apply eq_true_iff_eq. rewrite Nat.ltb_lt, Nat.leb_le. lia.
    + intros [= <-]. cbn [utf8_len]. apply eq_true_iff_eq. rewrite Nat.ltb_lt, Nat.leb_le. lia.
Qed.

Definition is_some {A} (o : option A) : bool := match o with Some _ => true | None => false end.
Definition the_history (h : option (list ustr)) : list ustr := match h with Some l => l | None => [] end.

Lemma new_reader_rel width prompt previous history echo r ops :
  new_reader width prompt previous history echo = Some (r, ops) ->
  rel (is_some history) r (opened previous (the_history history)) /\
  (0 <? r_width r) = has_room width (utf8_len prompt).
Proof.
  unfold new_reader. destruct (fit_prompt width prompt) as [p|] eqn:F; [|discriminate].
  apply fit_prompt_room in F.
  destruct history as [h|]; cbn [is_some the_history]; intros [= <- _]; (split; [|exact F]).
  - unfold rel, opened, text_of, entries. cbn.
    rewrite !rev_involutive, app_nil_r, rev_length. split; [reflexivity|]. split; [reflexivity|].
    split; [reflexivity|]. rewrite app_length, rev_length. cbn. lia.
  - unfold rel, opened, text_of, entries. cbn. rewrite rev_involutive, app_nil_r, rev_length. auto.
Qed.

Lemma byte_prefix_ascii s : one_byte s -> forall n, n <= length s -> byte_prefix n s = Some (firstn n s).
Proof.
  induction s as [|c s IH]; intros A n H.
  - cbn [length] in H. assert (n = 0) as -> by lia. reflexivity.
  - destruct n as [|n]; [reflexivity|]. cbn [byte_prefix Nat.eqb firstn]. rewrite (A c) by (left; reflexivity).
    change (1 <=? S n) with true. cbn [length] in H.
    replace (S n - 1) with n by lia. rewrite IH; [reflexivity| |lia]. intros d D. apply A. right. exact D.
Qed.

Lemma one_byte_len s : one_byte s -> utf8_len s = length s.
Proof.
  induction s as [|c s IH]; intros A; [reflexivity|]. cbn [utf8_len length].
  rewrite (A c) by (left; reflexivity). rewrite IH; [reflexivity|]. intros d D. apply A. right. exact D.
Qed.

Lemma fit_prompt_shown width prompt : one_byte prompt ->
  fit_prompt width prompt = Some (shown_prompt width prompt) /\
  utf8_len (shown_prompt width prompt) = length (shown_prompt width prompt).
Proof.
  intros A. unfold fit_prompt, shown_prompt. rewrite (one_byte_len _ A).
  destruct (length prompt <? width) eqn:E; [split; [reflexivity|apply one_byte_len, A]|].
  apply Nat.ltb_ge in E. destruct (5 <=? width) eqn:F; [|auto]. apply Nat.leb_le in F.
  rewrite byte_prefix_ascii by (auto; lia). split; [reflexivity|].
  rewrite utf8_len_app, app_length. cbn. f_equal. apply one_byte_len.
  intros c C. apply A. rewrite <- (firstn_skipn (width - 5) prompt), in_app_iff. auto.
Qed.

(** * The row *)

Lemma shows_write w a b s : shows w (a ++ b) -> column w = length a ->
  shows (mkRow (over (cell w) (column w) s) (column w + length s) (visible w))
    (a ++ s ++ skipn (length s) b).
Proof.
  intros H C i. cbn [cell]. unfold over. rewrite C, H.
  destruct (length a <=? i) eqn:E; cbn [andb].
  - apply Nat.leb_le in E. rewrite (app_nth2 _ (s ++ _)) by lia.
    destruct (i <? length a + length s) eqn:F.
    + apply Nat.ltb_lt in F. rewrite app_nth1 by lia. reflexivity.
    + apply Nat.ltb_ge in F. rewrite (app_nth2 a), (app_nth2 s) by lia.
      replace (i - length a) with (length s + (i - length a - length s)) at 1 by lia.
      generalize (i - length a - length s) as j. generalize (length s) as n. clear. intros n j.
      revert b. induction n as [|n IH]; intros b; [reflexivity|].
      destruct b as [|x b]; [cbn; now destruct j|]. cbn [Nat.add nth skipn]. apply IH.
  - apply Nat.leb_gt in E. rewrite !app_nth1 by lia. reflexivity.
Qed.

Lemma shows_blanks w s n : shows w (s ++ repeat 32%N n) -> shows w s.
Proof.
  intros H i. rewrite H. destruct (Nat.lt_ge_cases i (length s)) as [L|G].
  - apply app_nth1, L.
  - rewrite app_nth2, (nth_overflow s) by lia. apply nth_repeat.
Qed.

Lemma draw_app width ops ops' : forall w,
  draw width w (ops ++ ops') =
  match draw width w ops with Some w => draw width w ops' | None => None end.
Proof.
  induction ops as [|o ops IH]; intros w; [reflexivity|]. cbn [app draw].
  destruct (draw1 width w o); [apply IH|reflexivity].
Qed.

Lemma neg_i16 n : (Z.of_nat n <= 32767)%Z -> neg16 (as_i16 n) = (- Z.of_nat n)%Z.
Proof. intros H. unfold neg16, as_i16, wrap16. Z.to_euclidean_division_equations; lia. Qed.

Lemma sub_i16 a b : (Z.of_nat a <= Z.of_nat b + 32767)%Z -> (Z.of_nat b <= Z.of_nat a + 32767)%Z ->
  sub16 (as_i16 a) (as_i16 b) = (Z.of_nat a - Z.of_nat b)%Z.
Proof. intros H H'. unfold sub16, as_i16, wrap16. Z.to_euclidean_division_equations; lia. Qed.

Lemma neg_wrap16 z : (0 <= z <= 32767)%Z -> neg16 (wrap16 z) = (- z)%Z.
Proof. intros H. unfold neg16, wrap16. Z.to_euclidean_division_equations; lia. Qed.

Section Row.
Variables (width : nat) (prompt : ustr).

(** The prompt is on screen, followed by the rendered text. *)
Definition on_row (w : row) (s : ustr) (col : nat) : Prop :=
  shows w (prompt ++ s) /\ column w = length prompt + col /\ visible w = true.

Definition window (r : reader) : ustr :=
  firstn (r_width r) (skipn (r_view r) (displayed (r_echo r) (r_line r))).

Definition good (r : reader) : Prop :=
  length prompt + r_width r + 1 = width /\ (0 < r_width r /\ (Z.of_nat (r_width r) <= 32767)%Z) /\
  r_view r <= r_pos r <= r_view r + r_width r /\ r_pos r <= length (r_line r) /\
  r_rendered r = window r /\ r_rendered_len r = length (r_rendered r).

Definition on_screen (r : reader) (w : row) : Prop :=
  good r /\ on_row w (window r) (r_pos r - r_view r).

Lemma displayed_length echo s : length (displayed echo s) = length s.
Proof. unfold displayed. destruct echo; [reflexivity|apply map_length]. Qed.

Lemma window_length r : length (window r) = min (length (r_line r) - r_view r) (r_width r).
Proof. unfold window. rewrite firstn_length, skipn_length, displayed_length. lia. Qed.

Lemma stars {A} (s : list A) : map (fun _ => 42%N) s = repeat 42%N (length s).
Proof. induction s as [|c s IH]; cbn; [reflexivity|now rewrite IH]. Qed.

Lemma skipn_repeat {A} (x : A) n m : skipn n (repeat x m) = repeat x (m - n).
Proof.
  revert m. induction n as [|n IH]; intros m; [now rewrite Nat.sub_0_r|]. destruct m as [|m]; [reflexivity|]. apply IH.
Qed.

Lemma firstn_repeat {A} (x : A) n m : firstn n (repeat x m) = repeat x (min m n).
Proof.
  revert m. induction n as [|n IH]; intros m; [now rewrite Nat.min_0_r|].
  destruct m as [|m]; [reflexivity|]. cbn [repeat firstn Nat.min]. now rewrite IH.
Qed.

Lemma render_window r : render_line r (r_view r) = window r.
Proof.
  unfold render_line, window, displayed. destruct (r_echo r); [reflexivity|].
  rewrite stars, skipn_repeat, firstn_repeat. reflexivity.
Qed.

Lemma draw_write w s : column w + length s < width ->
  draw1 width w (CWrite s) =
  Some (mkRow (over (cell w) (column w) s) (column w + length s) (visible w)).
Proof. intros H. cbn [draw1]. now rewrite (proj2 (Nat.ltb_lt _ _) H). Qed.

Lemma draw_move w z c : (Z.of_nat (column w) + z = Z.of_nat c)%Z -> c < width ->
  draw1 width w (CMove z) = Some (mkRow (cell w) c (visible w)).
Proof.
  intros H L. cbn [draw1]. rewrite H. rewrite (proj2 (Z.leb_le _ _)) by lia.
  rewrite (proj2 (Z.ltb_lt _ _)) by lia. cbn [andb]. now rewrite Nat2Z.id.
Qed.

Lemma adjust_ok w pos view : 0 < w ->
  adjust_view w pos view <= pos <= adjust_view w pos view + w.
Proof.
  intros H. unfold adjust_view. rewrite (proj2 (Nat.eqb_neq _ _)) by lia.
  destruct (pos <? view) eqn:E; [lia|]. apply Nat.ltb_ge in E.
  destruct (view + w <? pos) eqn:F; [apply Nat.ltb_lt in F|apply Nat.ltb_ge in F]; lia.
Qed.

(** Drawing the whole text again. *)
Lemma redraw_ok r w r' : on_screen r w -> good r' ->
  exists w', draw width w (redraw_line r' (current_pos r) (r_rendered_len r) (current_pos r')) = Some w'
    /\ on_screen r' w'.
Proof.
  intros [G (Sh & Co & Vi)] G'.
  destruct G as (W & B & V & L & Re & Rl). pose proof G' as (W' & B' & V' & L' & Re' & Rl').
  pose proof (window_length r) as WL. pose proof (window_length r') as WL'.
  rewrite Rl, Re. unfold redraw_line. rewrite Rl', Re'.
  set (old := window r) in *. set (s := window r') in *.
  cbn [app draw draw1].
  set (w0 := mkRow (cell w) (column w) false).
  assert (A1 : exists w1, draw width w0 (if 0 <? current_pos r then [CMove (neg16 (as_i16 (current_pos r)))] else [])
            = Some w1 /\ shows w1 (prompt ++ old) /\ column w1 = length prompt).
  { unfold current_pos. destruct (0 <? r_pos r - r_view r) eqn:E.
    - cbn [draw]. rewrite (draw_move w0 _ (length prompt)).
      + eexists. split; [reflexivity|]. split; [exact Sh|reflexivity].
      + rewrite neg_i16 by lia. unfold w0. cbn [column]. lia.
      + lia.
    - apply Nat.ltb_ge in E. cbn [draw]. eexists. split; [reflexivity|]. split; [exact Sh|].
      unfold w0. cbn [column]. lia. }
  destruct A1 as (w1 & D1 & S1 & C1). rewrite draw_app, D1.
  assert (A2 : exists w2, draw width w1 (match s with [] => [] | c :: t => [CWrite (c :: t)] end) = Some w2 /\
            shows w2 (prompt ++ s ++ skipn (length s) old) /\ column w2 = length prompt + length s).
  { destruct s as [|c t] eqn:Es.
    - cbn [draw length skipn app]. exists w1. split; [reflexivity|]. split; [exact S1|]. lia.
    - rewrite <- Es in *. cbn [draw]. try rewrite <- Es. rewrite draw_write by lia. eexists. split; [reflexivity|].
      split; [apply shows_write; auto|]. cbn [column]. lia. }
  destruct A2 as (w2 & D2 & S2 & C2). rewrite draw_app, D2.
  assert (A3 : exists w3, draw width w2 (if length s <? length old
              then [CWrite (repeat 32%N (length old - length s))] else []) = Some w3 /\
            shows w3 (prompt ++ s) /\ column w3 = length prompt + max (length s) (length old)).
  { destruct (length s <? length old) eqn:E.
    - apply Nat.ltb_lt in E. cbn [draw]. rewrite draw_write by (rewrite repeat_length; lia).
      eexists. split; [reflexivity|]. split.
      + rewrite app_assoc in S2. apply shows_write with (s := repeat 32%N (length old - length s)) in S2.
        * rewrite (skipn_all2 (skipn _ _)) in S2 by (rewrite skipn_length, repeat_length; lia).
          rewrite app_nil_r in S2. apply shows_blanks in S2. exact S2.
        * rewrite app_length. exact C2.
      + cbn [column]. rewrite repeat_length. lia.
    - apply Nat.ltb_ge in E. cbn [draw]. exists w2. split; [reflexivity|].
      rewrite skipn_all2, app_nil_r in S2 by lia. split; [exact S2|]. lia. }
  destruct A3 as (w3 & D3 & S3 & C3). rewrite draw_app, D3.
  assert (Cp : current_pos r' <= length s) by (unfold current_pos; lia).
  assert (A4 : exists w4, draw width w3
      (if (Z.of_nat (max (length s) (length old)) - Z.of_nat (current_pos r') =? 0)%Z then []
       else [CMove (neg16 (wrap16 (Z.of_nat (max (length s) (length old)) - Z.of_nat (current_pos r'))))])
      = Some w4 /\ shows w4 (prompt ++ s) /\ column w4 = length prompt + current_pos r').
  { destruct (_ =? 0)%Z eqn:E.
    - apply Z.eqb_eq in E. cbn [draw]. exists w3. split; [reflexivity|]. split; [exact S3|]. lia.
    - apply Z.eqb_neq in E. cbn [draw]. rewrite (draw_move w3 _ (length prompt + current_pos r')).
      + eexists. split; [reflexivity|]. split; [exact S3|reflexivity].
      + rewrite neg_wrap16 by lia. lia.
      + lia. }
  destruct A4 as (w4 & D4 & S4 & C4). rewrite draw_app, D4. cbn [draw draw1].
  eexists. split; [reflexivity|]. split; [exact G'|]. split; [exact S4|]. split; [exact C4|reflexivity].
Qed.

(** A state made by [sync_rendered] is good if the view shows the cursor. *)
Lemma good_sync r line pos view : good r -> pos <= length line ->
  view <= pos <= view + r_width r -> good (sync_rendered (with_line r line pos view)).
Proof.
  intros (W & B & V & L & Re & Rl) P Vw. unfold good, sync_rendered. rewrite render_window.
  cbn [r_width r_view r_pos r_line r_rendered r_rendered_len with_line]. repeat split; auto; try lia.
Qed.

Lemma displayed_app echo a b : displayed echo (a ++ b) = displayed echo a ++ displayed echo b.
Proof. unfold displayed. destruct echo; [reflexivity|apply map_app]. Qed.

Lemma displayed_skipn echo n s : skipn n (displayed echo s) = displayed echo (skipn n s).
Proof. unfold displayed. destruct echo; [reflexivity|]. rewrite !stars, skipn_repeat, skipn_length. reflexivity. Qed.

Lemma displayed_firstn echo n s : firstn n (displayed echo s) = displayed echo (firstn n s).
Proof. unfold displayed. destruct echo; [reflexivity|]. rewrite !stars, firstn_repeat, firstn_length. f_equal. lia. Qed.

(** Erasing in place. *)
Lemma erase_ok r w p : on_screen r w -> r_view r = 0 -> length (r_line r) <= r_width r ->
  p < length (r_line r) -> p <= r_pos r ->
  exists w', draw width w (fst (erase_at r (r_pos r) p)) = Some w' /\
    on_screen (sync_rendered (with_line r (remove_at (r_line r) p) p (r_view r))) w'.
Proof.
  intros [G (Sh & Co & Vi)] V0 LW PL PP.
  pose proof G as (W & B & V & L & Re & Rl). pose proof (window_length r) as WL.
  rewrite V0, Nat.sub_0_r in *.
  assert (Win : window r = displayed (r_echo r) (r_line r)).
  { unfold window. rewrite V0. cbn [skipn]. apply firstn_all2. rewrite displayed_length. exact LW. }
  unfold erase_at. cbn [fst app draw draw1].
  set (w0 := mkRow (cell w) (column w) false).
  assert (A1 : exists w1, draw width w0 (if 0 <? r_pos r - p then [CMove (neg16 (as_i16 (r_pos r - p)))] else [])
            = Some w1 /\ shows w1 (prompt ++ window r) /\ column w1 = length prompt + p).
  { destruct (0 <? r_pos r - p) eqn:E.
    - cbn [draw]. rewrite (draw_move w0 _ (length prompt + p)).
      + eexists. split; [reflexivity|]. split; [exact Sh|reflexivity].
      + rewrite neg_i16 by lia. unfold w0. cbn [column]. lia.
      + lia.
    - apply Nat.ltb_ge in E. cbn [draw]. eexists. split; [reflexivity|]. split; [exact Sh|].
      unfold w0. cbn [column]. lia. }
  destruct A1 as (w1 & D1 & S1 & C1). rewrite draw_app, D1. cbn [draw].
  set (e := r_echo r) in *. set (l := r_line r) in *.
  assert (Tail : CWrite (if e then skipn (p + 1) l else repeat secure_char (length l - p - 1))
                 = CWrite (displayed e (skipn (p + 1) l))).
  { unfold displayed. destruct e; [reflexivity|]. rewrite stars, skipn_length. f_equal. f_equal. lia. }
  rewrite Tail. assert (TL : length (displayed e (skipn (p + 1) l)) = length l - p - 1)
    by (rewrite displayed_length, skipn_length; lia).
  rewrite draw_write by lia.
  set (w2 := mkRow _ _ _).
  assert (S2 : exists x, shows w2 ((prompt ++ displayed e (firstn p l) ++ displayed e (skipn (p + 1) l)) ++ [x])).
  { rewrite Win in S1. rewrite <- (firstn_skipn p l), displayed_app, app_assoc in S1.
    apply shows_write with (s := displayed e (skipn (p + 1) l)) in S1.
    2: { rewrite app_length, displayed_length, firstn_length. lia. }
    rewrite TL in S1 at 2.
    assert (Y : length (skipn (length l - p - 1) (displayed e (skipn p l))) = 1)
      by (rewrite skipn_length, displayed_length, skipn_length; lia).
    destruct (skipn (length l - p - 1) (displayed e (skipn p l))) as [|x [|y t]]; cbn [length] in Y; try lia.
    exists x. rewrite <- !app_assoc in *. exact S1. }
  assert (C2 : column w2 = length prompt + length l - 1) by (unfold w2; cbn [column]; lia).
  destruct S2 as [x S3]. rewrite draw_write by (cbn [length]; lia).
  apply shows_write with (s := [32%N]) in S3.
  2: { rewrite !app_length, !displayed_length, firstn_length, skipn_length. lia. }
  set (w3 := mkRow (over (cell w2) (column w2) [32%N]) _ _) in *. cbn [length skipn] in S3.
  change ([32%N] ++ []) with (repeat 32%N 1) in S3. apply shows_blanks in S3.
  assert (C3 : column w3 = length prompt + length l) by (unfold w3; cbn [column length]; lia).
  rewrite (draw_move w3 _ (length prompt + p)); [|rewrite neg_i16 by lia; lia|lia].
  cbn [draw draw1]. eexists. split; [reflexivity|].
  assert (RL : length (remove_at l p) = length l - 1)
    by (unfold remove_at; rewrite app_length, firstn_length, skipn_length; lia).
  split; [|split; [|split]].
  - apply good_sync; auto; lia.
  - cbn [visible cell column]. unfold window, sync_rendered, with_line.
    cbn [r_width r_view r_echo r_line skipn].
    rewrite firstn_all2 by (fold e l; rewrite displayed_length; lia).
    unfold remove_at. fold l e. rewrite displayed_app. exact S3.
  - unfold sync_rendered, with_line. cbn [column r_pos r_view]. lia.
  - reflexivity.
Qed.

(** Typing in place. *)
Lemma type_ok r w c : on_screen r w ->
  adjust_view (r_width r) (r_pos r + 1) (r_view r) = r_view r -> length (r_line r) < r_width r ->
  exists w', draw width w
    (if r_pos r <? length (r_line r)
     then [CHide]
         ++ (if r_echo r then [CWrite [c]; CWrite (skipn (r_pos r) (r_line r))]
             else [CWrite (repeat secure_char (length (r_line r) - r_pos r + 1))])
         ++ [CMove (neg16 (as_i16 (length (r_line r) - r_pos r))); CShow]
     else [CWrite [if r_echo r then c else secure_char]]) = Some w' /\
    on_screen (sync_rendered (with_line r (insert_at (r_line r) (r_pos r) c) (r_pos r + 1) (r_view r))) w'.
Proof.
  intros [G (Sh & Co & Vi)] Adj LW.
  pose proof G as (W & B & V & L & Re & Rl). pose proof (window_length r) as WL.
  pose proof (adjust_ok (r_width r) (r_pos r + 1) (r_view r) ltac:(lia)) as AO. rewrite Adj in AO.
  set (e := r_echo r) in *. set (l := r_line r) in *. set (v := r_view r) in *. set (p := r_pos r) in *.
  assert (IL : length (insert_at l p c) = length l + 1).
  { unfold insert_at. rewrite app_length. cbn [length]. rewrite firstn_length, skipn_length. lia. }
  assert (G' : good (sync_rendered (with_line r (insert_at l p c) (p + 1) v))).
  { apply good_sync; auto; fold v; lia. }
  assert (Win : window r = displayed e (firstn (p - v) (skipn v l)) ++ displayed e (skipn p l)).
  { unfold window. fold e l v. rewrite firstn_all2 by (rewrite skipn_length, displayed_length; lia).
    rewrite displayed_skipn, <- displayed_app. f_equal.
    rewrite <- (firstn_skipn (p - v) (skipn v l)) at 1. f_equal.
    rewrite skipn_skipn. f_equal. lia. }
  assert (Win' : window (sync_rendered (with_line r (insert_at l p c) (p + 1) v))
          = displayed e (firstn (p - v) (skipn v l)) ++ displayed e [c] ++ displayed e (skipn p l)).
  { unfold window, sync_rendered, with_line. cbn [r_width r_view r_echo r_line]. fold e.
    rewrite firstn_all2 by (rewrite skipn_length, displayed_length; lia).
    rewrite displayed_skipn, <- !displayed_app. f_equal. unfold insert_at.
    rewrite skipn_app, firstn_length. replace (v - min p (length l)) with 0 by lia. cbn [skipn app].
    f_equal. rewrite skipn_firstn_comm. reflexivity. }
  assert (FL : length (displayed e (firstn (p - v) (skipn v l))) = p - v).
  { rewrite displayed_length, firstn_length, skipn_length. lia. }
  rewrite Win in Sh. rewrite app_assoc in Sh.
  assert (Sh1 : shows (mkRow (over (cell w) (column w) (displayed e [c] ++ displayed e (skipn p l)))
                         (column w + length (displayed e [c] ++ displayed e (skipn p l))) (visible w))
                (prompt ++ window (sync_rendered (with_line r (insert_at l p c) (p + 1) v)))).
  { rewrite Win'. apply shows_write with (s := displayed e [c] ++ displayed e (skipn p l)) in Sh.
    2: { rewrite app_length, FL. exact Co. }
    rewrite (skipn_all2 (displayed e (skipn p l))) in Sh by (rewrite app_length, !displayed_length; cbn; lia).
    rewrite app_nil_r in Sh. rewrite <- !app_assoc in Sh. exact Sh. }
  assert (TL : length (displayed e [c] ++ displayed e (skipn p l)) = length l - p + 1).
  { rewrite app_length, !displayed_length, skipn_length. cbn [length]. lia. }
  destruct (p <? length l) eqn:PL.
  - apply Nat.ltb_lt in PL. cbn [app draw draw1]. rewrite draw_app.
    set (w0 := mkRow (cell w) (column w) false).
    assert (D : exists w1, draw width w0 (if e then [CWrite [c]; CWrite (skipn p l)]
                  else [CWrite (repeat secure_char (length l - p + 1))]) = Some w1 /\
                shows w1 (prompt ++ window (sync_rendered (with_line r (insert_at l p c) (p + 1) v))) /\
                column w1 = length prompt + (p - v) + (length l - p + 1)).
    { destruct e eqn:Ee.
      - cbn [draw]. rewrite draw_write by (unfold w0; cbn [column length]; lia).
        rewrite draw_write by (unfold w0; cbn [column length]; rewrite skipn_length; lia).
        eexists. split; [reflexivity|]. split.
        + intros i. rewrite <- (Sh1 i). cbn [cell column displayed length app]. unfold w0. cbn [cell column].
          unfold over. cbn [length app].
          destruct (column w <=? i) eqn:E1; cbn [andb].
          * apply Nat.leb_le in E1. destruct (Nat.eq_dec i (column w)) as [->|Ne].
            -- rewrite (proj2 (Nat.leb_gt _ _)) by lia. cbn [andb].
               rewrite !(proj2 (Nat.ltb_lt _ _)) by lia. rewrite Nat.sub_diag. reflexivity.
            -- rewrite (proj2 (Nat.leb_le (column w + 1) i)) by lia. cbn [andb].
               replace (column w + 1 + length (skipn p l)) with (column w + S (length (skipn p l))) by lia.
               destruct (i <? _).
               ++ replace (i - column w) with (S (i - (column w + 1))) by lia. reflexivity.
               ++ rewrite (proj2 (Nat.ltb_ge i (column w + 1))) by lia. reflexivity.
          * apply Nat.leb_gt in E1. rewrite (proj2 (Nat.leb_gt _ _)) by lia. reflexivity.
        + unfold w0. cbn [column length]. rewrite skipn_length. lia.
      - cbn [draw].
        assert (St : repeat secure_char (length l - p + 1) = displayed false [c] ++ displayed false (skipn p l)).
        { rewrite <- displayed_app. unfold displayed. rewrite stars, app_length, skipn_length. cbn [length].
          f_equal. lia. }
        rewrite St. rewrite draw_write by (unfold w0; cbn [column]; lia).
        eexists. split; [reflexivity|]. split; [exact Sh1|]. unfold w0. cbn [column]. lia. }
    destruct D as (w1 & D1 & S1 & C1). rewrite D1. cbn [draw].
    rewrite (draw_move w1 _ (length prompt + (p + 1 - v))); [|rewrite neg_i16 by lia; lia|lia].
    cbn [draw draw1]. eexists. split; [reflexivity|]. split; [exact G'|]. split; [exact S1|].
    split; reflexivity.
  - apply Nat.ltb_ge in PL. assert (skipn p l = []) as E by (apply skipn_all2; lia).
    rewrite E in Sh1, TL. assert (D0 : displayed e (@nil N) = []) by (unfold displayed; now destruct e).
    rewrite D0, app_nil_r in Sh1, TL.
    assert (D : [if e then c else secure_char] = displayed e [c]) by (unfold displayed; now destruct e).
    cbn [draw]. rewrite D, draw_write by lia. eexists. split; [reflexivity|]. split; [exact G'|].
    split; [exact Sh1|]. split; [|exact Vi]. cbn [column]. unfold sync_rendered, with_line. cbn [r_pos r_view]. lia.
Qed.

Lemma press_row r w k r' ops : on_screen r w -> press r k = (DContinue, r', ops) ->
  exists w', draw width w ops = Some w' /\ on_screen r' w'.
Proof.
  intros On. pose proof On as [G (Sh & Co & Vi)]. pose proof G as (W & B & V & L & Re & Rl).
  assert (Same : (DContinue, r, @nil cop) = (DContinue, r', ops) ->
                 exists w', draw width w ops = Some w' /\ on_screen r' w').
  { intros E. assert (r = r') as <- by congruence. assert ([] = ops) as <- by congruence.
    exists w. auto. }
  assert (Redraw : forall line pos view, pos <= length line -> view <= pos <= view + r_width r ->
    let r1 := sync_rendered (with_line r line pos view) in
    (DContinue, r1, redraw_line r1 (current_pos r) (r_rendered_len r) (current_pos r1)) = (DContinue, r', ops) ->
    exists w', draw width w ops = Some w' /\ on_screen r' w').
  { intros line pos view P Vw r1 E. assert (r1 = r') as <- by congruence.
    assert (redraw_line r1 (current_pos r) (r_rendered_len r) (current_pos r1) = ops) as <- by congruence.
    apply redraw_ok; [exact On|]. apply good_sync; auto. }
  assert (Move : forall n, n <= length (r_line r) -> do_move_to r n = (DContinue, r', ops) ->
                 exists w', draw width w ops = Some w' /\ on_screen r' w').
  { intros n N. unfold do_move_to. destruct (n =? r_pos r) eqn:E1; [exact Same|].
    pose proof (adjust_ok (r_width r) n (r_view r) ltac:(lia)) as AO.
    destruct (adjust_view (r_width r) n (r_view r) =? r_view r) eqn:E2.
    - intros E. apply Nat.eqb_eq in E2. rewrite E2 in AO.
      assert (with_line r (r_line r) n (r_view r) = r') as <- by congruence.
      assert (ops = [CMove (sub16 (as_i16 n) (as_i16 (r_pos r)))]) as -> by congruence.
      cbn [draw]. rewrite (draw_move w _ (length prompt + (n - r_view r))).
      + eexists. split; [reflexivity|]. split; [|split; [exact Sh|split; [reflexivity|exact Vi]]].
        unfold good, with_line. cbn. repeat split; auto; lia.
      + rewrite sub_i16 by lia. lia.
      + lia.
    - apply Redraw; [exact N|exact AO]. }
  assert (Delete : do_delete r = (DContinue, r', ops) ->
                   exists w', draw width w ops = Some w' /\ on_screen r' w').
  { unfold do_delete. destruct (length (r_line r) <=? r_pos r) eqn:E1; [exact Same|].
    apply Nat.leb_gt in E1. destruct ((r_view r =? 0) && (length (r_line r) <=? r_width r)) eqn:E2.
    - apply andb_true_iff in E2. destruct E2 as [E2 E3]. apply Nat.eqb_eq in E2. apply Nat.leb_le in E3.
      destruct (erase_ok r w (r_pos r) On E2 E3) as (w' & D & O); try lia.
      intros E. unfold erase_at in E. exists w'.
      assert (ops = fst (erase_at r (r_pos r) (r_pos r))) as -> by (unfold erase_at; cbn [fst]; congruence).
      assert (r' = sync_rendered (with_line r (remove_at (r_line r) (r_pos r)) (r_pos r) (r_view r))) as ->
        by congruence. auto.
    - apply Redraw; [|apply adjust_ok; lia].
      unfold remove_at. rewrite app_length, firstn_length, skipn_length. lia. }
  unfold press. destruct k; try exact Same; try discriminate.
  - (* down *)
    unfold do_up_down. destruct (r_history r) as [h|]; [|exact Same]. destruct (_ =? _); [exact Same|].
    intros E. set (r1 := reset_view_to_end _) in E. assert (r1 = r') as <- by congruence.
    assert (ops = redraw_line r1 (current_pos r) (r_rendered_len r) (current_pos r1)) as -> by congruence.
    apply redraw_ok; [exact On|]. unfold r1, reset_view_to_end.
    apply (good_sync (mkReader _ (r_echo r) (r_width r) (r_line r) (r_pos r) (r_view r) (r_rendered r)
             (r_rendered_len r) _)).
    + exact G.
    + reflexivity.
    + cbn [r_pos r_width]. rewrite (proj2 (Nat.eqb_neq _ _)) by lia. lia.
  - apply Move. lia.
  - apply Move. lia.
  - (* up *)
    unfold do_up_down. destruct (r_history r) as [h|]; [|exact Same]. destruct (_ =? _); [exact Same|].
    intros E. set (r1 := reset_view_to_end _) in E. assert (r1 = r') as <- by congruence.
    assert (ops = redraw_line r1 (current_pos r) (r_rendered_len r) (current_pos r1)) as -> by congruence.
    apply redraw_ok; [exact On|]. unfold r1, reset_view_to_end.
    apply (good_sync (mkReader _ (r_echo r) (r_width r) (r_line r) (r_pos r) (r_view r) (r_rendered r)
             (r_rendered_len r) _)).
    + exact G.
    + reflexivity.
    + cbn [r_pos r_width]. rewrite (proj2 (Nat.eqb_neq _ _)) by lia. lia.
  - (* backspace *)
    unfold do_backspace. destruct (r_pos r =? 0) eqn:E1; [exact Same|]. apply Nat.eqb_neq in E1.
    destruct ((r_view r =? 0) && (length (r_line r) <=? r_width r)) eqn:E2.
    + apply andb_true_iff in E2. destruct E2 as [E2 E3]. apply Nat.eqb_eq in E2. apply Nat.leb_le in E3.
      destruct (erase_ok r w (r_pos r - 1) On E2 E3) as (w' & D & O); try lia.
      intros E. unfold erase_at in E. exists w'.
      assert (ops = fst (erase_at r (r_pos r) (r_pos r - 1))) as -> by (unfold erase_at; cbn [fst]; congruence).
      assert (r' = sync_rendered (with_line r (remove_at (r_line r) (r_pos r - 1)) (r_pos r - 1) (r_view r)))
        as -> by congruence. auto.
    + apply Redraw; [|apply adjust_ok; lia].
      unfold remove_at. rewrite app_length, firstn_length, skipn_length. lia.
  - (* char *)
    unfold do_char. destruct (r_width r =? 0) eqn:E1; [exact Same|].
    destruct ((adjust_view (r_width r) (r_pos r + 1) (r_view r) =? r_view r) &&
              (length (r_line r) <? r_width r)) eqn:E2.
    + apply andb_true_iff in E2. destruct E2 as [E2 E3]. apply Nat.eqb_eq in E2. apply Nat.ltb_lt in E3.
      destruct (type_ok r w c On E2 E3) as (w' & D & O). intros E. exists w'.
      destruct (r_pos r <? length (r_line r)) eqn:E4.
      * assert (r' = sync_rendered (with_line r (insert_at (r_line r) (r_pos r) c) (r_pos r + 1) (r_view r)))
          as -> by congruence. split; [|exact O]. rewrite <- D. f_equal. symmetry. congruence.
      * apply Nat.ltb_ge in E4. assert (Q : length (r_line r) = r_pos r) by lia. rewrite Q in E.
        assert (r' = sync_rendered (with_line r (insert_at (r_line r) (r_pos r) c) (r_pos r + 1) (r_view r)))
          as -> by congruence. split; [|exact O]. rewrite <- D. f_equal. symmetry. congruence.
    + apply Redraw.
      * unfold insert_at. rewrite app_length. cbn [length]. rewrite firstn_length, skipn_length. lia.
      * apply adjust_ok. lia.
  - exact Delete.
  - apply Move. lia.
  - unfold do_eof_or_delete. destruct (r_line r) eqn:E; [discriminate|]. exact Delete.
  - apply Move. lia.
Qed.

Lemma run_row keys : forall r w r' rest ops, on_screen r w -> run r keys = (Waiting r', rest, ops) ->
  exists w', draw width w ops = Some w' /\ on_screen r' w'.
Proof.
  induction keys as [|k keys IH]; intros r w r' rest ops On; cbn [run].
  - intros E. assert (r' = r) as -> by congruence. assert (ops = []) as -> by congruence. exists w. auto.
  - destruct (press r k) as [[d r1] o1] eqn:P. destruct d.
    + destruct (run r1 keys) as [[o rest'] ops'] eqn:R. intros E.
      assert (o = Waiting r') as -> by congruence. assert (ops = o1 ++ ops') as -> by congruence.
      destruct (press_row _ _ _ _ _ On P) as (w1 & D1 & On1).
      destruct (IH _ _ _ _ _ On1 R) as (w2 & D2 & On2). exists w2. rewrite draw_app, D1. auto.
    + destruct (finish r1). discriminate.
    + discriminate.
    + discriminate.
Qed.
End Row.

Lemma press_echo r k : r_echo (snd (fst (press r k))) = r_echo r.
Proof.
  unfold press, do_up_down, do_move_to, do_backspace, do_newline, do_char, do_delete, do_end,
    do_eof_or_delete, do_ignore, do_home, do_interrupt, do_move_to, do_delete, erase_at, reset_view_to_end.
  destruct k; try reflexivity;
    repeat (match goal with |- context [match ?x with _ => _ end] => destruct x end; try reflexivity).
Qed.

Lemma run_fields keys : forall r r' rest ops, run r keys = (Waiting r', rest, ops) ->
  r_echo r' = r_echo r /\ r_width r' = r_width r.
Proof.
  induction keys as [|k keys IH]; intros r r' rest ops; cbn [run].
  - intros E. assert (r' = r) as -> by congruence. auto.
  - pose proof (press_echo r k) as A. pose proof (press_width r k) as B.
    destruct (press r k) as [[d r1] o1]. cbn [fst snd] in *. destruct d; try discriminate.
    + destruct (run r1 keys) as [[o rest'] ops'] eqn:R. intros E.
      assert (o = Waiting r') as -> by congruence. apply IH in R. intuition congruence.
Qed.

(** * The start of the row *)

Lemma new_reader_row width prompt previous history echo r ops : one_byte prompt ->
  let p := shown_prompt width prompt in
  length p + 1 < width -> (Z.of_nat width <= 32768)%Z ->
  new_reader width prompt previous history echo = Some (r, ops) ->
  r_echo r = echo /\ r_width r = width - length p - 1 /\
  exists w, draw width blank_row ops = Some w /\ on_screen width p r w.
Proof.
  intros A p R I. destruct (fit_prompt_shown width prompt A) as [F U]. fold p in F, U.
  unfold new_reader. rewrite F, U.
  set (iw := width - length p - 1).
  assert (IW : iw = width - length p - 1) by reflexivity. clearbody iw.
  assert (G : forall h hp,
    let r := sync_rendered (mkReader h echo iw previous (length previous)
               (adjust_view iw (length previous) (if iw =? 0 then 0 else length previous - iw)) [] 0 hp) in
    let ops := match p ++ r_rendered r with [] => [] | c :: t => [CWrite (c :: t); CSync] end in
    r_echo r = echo /\ r_width r = iw /\ exists w, draw width blank_row ops = Some w /\ on_screen width p r w).
  { intros h hp r0 ops0. split; [reflexivity|]. split; [reflexivity|].
    pose proof (adjust_ok iw (length previous) (if iw =? 0 then 0 else length previous - iw) ltac:(lia)) as AO.
    set (view := adjust_view _ _ _) in *.
    assert (Gd : good width p r0).
    { unfold good, r0, sync_rendered. rewrite render_window. cbn. repeat split; auto; lia. }
    pose proof Gd as (_ & _ & _ & _ & Re & _).
    assert (WL : length (window r0) = min (length previous - view) iw) by (rewrite window_length; reflexivity).
    assert (Hw : exists w, draw width blank_row ops0 = Some w /\ shows w (p ++ window r0) /\
                 column w = length p + length (window r0) /\ visible w = true).
    { unfold ops0. rewrite Re.
      assert (D : shows (mkRow (over (cell blank_row) 0 (p ++ window r0)) (0 + length (p ++ window r0)) true)
                    (p ++ window r0)).
      { pose proof (shows_write blank_row [] [] (p ++ window r0)) as X. cbn [app] in X.
        rewrite skipn_nil, app_nil_r in X. apply X; [|reflexivity]. intros i. cbn. now destruct i. }
      destruct (p ++ window r0) as [|c t] eqn:E.
      - cbn [draw]. exists blank_row. split; [reflexivity|].
        assert (length (p ++ window r0) = 0) as Z by (rewrite E; reflexivity). rewrite app_length in Z.
        split; [intros i; cbn; now destruct i|]. cbn [blank_row column visible]. split; [lia|reflexivity].
      - rewrite <- E in *. cbn [draw]. rewrite draw_write by (rewrite app_length; cbn [blank_row column]; lia).
        cbn [draw1]. eexists. split; [reflexivity|]. split; [exact D|]. split; [|reflexivity].
        cbn [column blank_row]. rewrite app_length. lia. }
    destruct Hw as (w & D & S1 & C1 & V1). exists w. split; [exact D|]. split; [exact Gd|].
    split; [exact S1|]. split; [|exact V1]. rewrite C1. unfold r0. cbn [r_pos r_view sync_rendered].
    f_equal. unfold r0 in WL. fold view. rewrite WL.
    unfold view, adjust_view. rewrite (proj2 (Nat.eqb_neq iw 0)) by lia.
    destruct (_ <? _) eqn:E1; [apply Nat.ltb_lt in E1; lia|].
    destruct (_ <? length previous) eqn:E2; [apply Nat.ltb_lt in E2|apply Nat.ltb_ge in E2]; lia. }
  destruct history as [h|].
  - intros E. specialize (G (Some (h ++ [previous])) (length (h ++ [previous]) - 1)).
    cbn beta zeta in G. injection E as <- <-. exact G.
  - intros E. specialize (G None 0). cbn beta zeta in G. injection E as <- <-. exact G.
Qed.

(** * Passwords *)

Definition alike (r r' : reader) : Prop :=
  r_history r = None /\ r_history r' = None /\ r_echo r = false /\ r_echo r' = false /\
  r_width r = r_width r' /\ length (r_line r) = length (r_line r') /\ r_pos r = r_pos r' /\
  r_view r = r_view r' /\ r_rendered r = r_rendered r' /\ r_rendered_len r = r_rendered_len r'.

Definition alike_step (s s' : step) : Prop :=
  let '(d, r, ops) := s in let '(d', r', ops') := s' in d = d' /\ ops = ops' /\ alike r r'.

Lemma alike_sync r r' line line' pos view : alike r r' -> length line = length line' ->
  alike (sync_rendered (with_line r line pos view)) (sync_rendered (with_line r' line' pos view)).
Proof.
  intros (A & A' & B & B' & C & D & E & F & G & H) L.
  unfold alike, sync_rendered, with_line, render_line.
  cbn [r_history r_echo r_width r_line r_pos r_view r_rendered r_rendered_len r_history_pos].
  rewrite B, B', C, L. repeat split; auto.
Qed.

Lemma alike_redraw r r' a b : alike r r' ->
  redraw_line r a b (current_pos r) = redraw_line r' a b (current_pos r').
Proof.
  intros (A & A' & B & B' & C & D & E & F & G & H). unfold redraw_line, current_pos.
  rewrite E, F, G, H. reflexivity.
Qed.

Lemma remove_at_length (l l' : ustr) n : length l = length l' -> length (remove_at l n) = length (remove_at l' n).
Proof. intros H. unfold remove_at. rewrite !app_length, !firstn_length, !skipn_length, H. reflexivity. Qed.

Lemma insert_at_length (l l' : ustr) n c c' : length l = length l' ->
  length (insert_at l n c) = length (insert_at l' n c').
Proof. intros H. unfold insert_at. rewrite !app_length. cbn [length]. rewrite !firstn_length, !skipn_length, H. reflexivity. Qed.

Lemma alike_move r r' n : alike r r' -> alike_step (do_move_to r n) (do_move_to r' n).
Proof.
  intros AL. pose proof AL as (A & A' & B & B' & C & D & E & F & G & H). unfold do_move_to.
  rewrite C, E, F. destruct (_ =? r_pos r'); [split; auto|].
  destruct (_ =? r_view r'); [split; [auto|]; split; [reflexivity|]; unfold alike; cbn; repeat split; auto|].
  split; [reflexivity|]. assert (X : current_pos r = current_pos r') by (unfold current_pos; now rewrite E, F).
  rewrite X, H. split; [apply alike_redraw|]; apply alike_sync; auto.
Qed.

Lemma alike_delete r r' : alike r r' -> alike_step (do_delete r) (do_delete r').
Proof.
  intros AL. pose proof AL as (A & A' & B & B' & C & D & E & F & G & H). unfold do_delete, erase_at.
  rewrite C, D, E, F, B, B'. destruct (_ <=? r_pos r'); [split; auto|].
  assert (X : current_pos r = current_pos r') by (unfold current_pos; now rewrite E, F).
  destruct ((_ =? 0) && _).
  - split; [reflexivity|]. split; [reflexivity|]. apply alike_sync; [auto|]. apply remove_at_length, D.
  - split; [reflexivity|]. rewrite X, H.
    split; [apply alike_redraw|]; apply alike_sync; auto; apply remove_at_length, D.
Qed.

Lemma press_alike r r' k k' : alike r r' -> same_shape k k' -> alike_step (press r k) (press r' k').
Proof.
  intros AL SS. pose proof AL as (A & A' & B & B' & C & D & E & F & G & H).
  assert (X : current_pos r = current_pos r') by (unfold current_pos; now rewrite E, F).
  destruct k, k'; cbn [same_shape] in SS; try discriminate; cbn [press];
    try (split; [reflexivity|]; split; [reflexivity|exact AL]).
  - unfold do_up_down. rewrite A, A'. split; auto.
  - rewrite E. apply alike_move, AL.
  - rewrite E, D. apply alike_move, AL.
  - unfold do_up_down. rewrite A, A'. split; auto.
  - unfold do_backspace, erase_at. rewrite C, D, E, F, B, B'. destruct (_ =? 0); [split; auto|].
    destruct ((_ =? 0) && _).
    + split; [reflexivity|]. split; [reflexivity|]. apply alike_sync; [auto|]. apply remove_at_length, D.
    + split; [reflexivity|]. rewrite X, H.
      split; [apply alike_redraw|]; apply alike_sync; auto; apply remove_at_length, D.
  - unfold do_char. rewrite C, D, E, F, B, B'. destruct (_ =? 0); [split; auto|].
    destruct ((_ =? _) && _).
    + destruct (_ <? _); (split; [reflexivity|]); (split; [reflexivity|]);
        (apply alike_sync; [auto|]; apply insert_at_length, D).
    + split; [reflexivity|]. rewrite X, H.
      split; [apply alike_redraw|]; apply alike_sync; auto; apply insert_at_length, D.
  - apply alike_delete, AL.
  - unfold do_end. rewrite D. apply alike_move, AL.
  - unfold do_eof_or_delete. destruct (r_line r), (r_line r'); try discriminate.
    + split; auto.
    + apply alike_delete, AL.
  - apply alike_move, AL.
Qed.

Lemma run_alike keys keys' : Forall2 same_shape keys keys' -> forall r r', alike r r' ->
  snd (run r keys) = snd (run r' keys').
Proof.
  induction 1 as [|k k' keys keys' SS _ IH]; intros r r' AL; [reflexivity|]. cbn [run].
  pose proof (press_alike r r' k k' AL SS) as P.
  destruct (press r k) as [[d r1] o1], (press r' k') as [[d' r1'] o1']. destruct P as (<- & <- & AL').
  destruct d.
  - specialize (IH _ _ AL'). destruct (run r1 keys) as [[x y] z], (run r1' keys') as [[x' y'] z'].
    cbn [snd] in *. now rewrite IH.
  - destruct (finish r1), (finish r1'). reflexivity.
  - reflexivity.
  - reflexivity.
Qed.

(** * Not interactive *)

Lemma raw_typing keys : ~ In KEofOrDelete keys -> forall e l, after e = [] -> l = text_of e ->
  let (o, rest) := read_line_raw l keys in
  let (t, rest') := typing true e (flat_map plain keys) in raw_as o t /\ flat_map plain rest = rest'.
Proof.
  induction keys as [|k keys IH]; intros NE e l A ->.
  - cbn. auto.
  - assert (NE' : ~ In KEofOrDelete keys) by (intros Q; apply NE; right; exact Q).
    assert (Put : forall c, let (o, rest) := read_line_raw (text_of e ++ [c]) keys in
        let (t, rest') := typing true (put e (c :: before e) (after e)) (flat_map plain keys) in
        raw_as o t /\ flat_map plain rest = rest').
    { intros c. apply IH; auto. unfold text_of. cbn [before after put rev]. rewrite A, !app_nil_r. reflexivity. }
    destruct k; cbn [read_line_raw flat_map plain app typing edit]; try (apply IH; auto; fail).
    + destruct (before e) as [|c b] eqn:B.
      * assert (T : text_of e = []) by (unfold text_of; rewrite B, A; reflexivity).
        rewrite T. cbn [removelast]. apply IH; auto.
      * apply IH; auto. unfold text_of. rewrite B, A. cbn [before after put rev].
        rewrite !app_nil_r, removelast_app1. reflexivity.
    + cbn. auto.
    + apply Put.
    + exfalso. apply NE. left. reflexivity.
    + cbn. auto.
    + cbn. auto.
    + apply Put.
Qed.

(** * The editor and its history *)

Lemma edit_entries_length room e k : length (entries (edit room e k)) = length (entries e).
Proof.
  unfold entries. destruct e as [b a o h nw]. destruct k; unfold edit, erase_next, put; cbn [before after older newer here];
    try reflexivity;
    repeat match goal with |- context [match ?x with _ => _ end] => destruct x end;
    cbn [older newer here rev]; rewrite ?app_length, ?rev_length; cbn [length]; rewrite ?app_length, ?rev_length; cbn [length]; lia.
Qed.

Lemma typing_length room keys : forall e t rest, typing room e keys = (t, rest) ->
  exists e', (t = Line e' \/ t = Eof e' \/ t = Stopped e' \/ t = More e') /\
    length (entries e') = length (entries e).
Proof.
  induction keys as [|k keys IH]; intros e t rest; cbn [typing].
  - intros [= <- <-]. exists e. auto.
  - assert (X : typing room (edit room e k) keys = (t, rest) ->
      exists e', (t = Line e' \/ t = Eof e' \/ t = Stopped e' \/ t = More e') /\
        length (entries e') = length (entries e)).
    { intros E. apply IH in E. rewrite edit_entries_length in E. exact E. }
    destruct k; try exact X; try (intros [= <- <-]; exists e; auto; fail).
    destruct (text_of e); [|exact X]. intros [= <- <-]. exists e. auto.
Qed.

(** Browsing without edits. *)
Lemma moves_keep room keys : Forall only_moves keys -> forall e t rest, text_of e = here e ->
  typing room e keys = (t, rest) ->
  exists e', (t = Line e' \/ t = Stopped e' \/ t = More e') /\ entries e' = entries e /\ text_of e' = here e'.
Proof.
  induction 1 as [|k keys M _ IH]; intros e t rest T; cbn [typing].
  - intros [= <- <-]. exists e. auto.
  - assert (X : typing room (edit room e k) keys = (t, rest) -> entries (edit room e k) = entries e ->
      text_of (edit room e k) = here (edit room e k) ->
      exists e', (t = Line e' \/ t = Stopped e' \/ t = More e') /\ entries e' = entries e /\ text_of e' = here e').
    { intros E EE TT. apply IH in E; [|exact TT]. rewrite EE in E. exact E. }
    destruct k; cbn [only_moves] in M; try contradiction;
      try (intros [= <- <-]; exists e; auto; fail); intros E; apply (X E); clear X E IH;
      cbn [edit]; auto.
    + destruct (newer e) as [|n ns] eqn:Nw; [reflexivity|]. unfold entries. cbn [older here newer rev].
      rewrite Nw, T, <- app_assoc. reflexivity.
    + destruct (newer e) as [|n ns]; [exact T|]. unfold text_of. cbn [before after here].
      rewrite rev_involutive, app_nil_r. reflexivity.
    + destruct (before e); reflexivity.
    + destruct (before e) as [|c b] eqn:B; [exact T|]. unfold text_of. cbn [before after put here].
      unfold text_of in T. rewrite B in T. cbn [rev] in T. rewrite <- app_assoc in T. exact T.
    + destruct (after e); reflexivity.
    + destruct (after e) as [|c a] eqn:B; [exact T|]. unfold text_of. cbn [before after put here rev].
      rewrite <- app_assoc. unfold text_of in T. rewrite B in T. exact T.
    + destruct (older e) as [|n ns] eqn:Nw; [reflexivity|]. unfold entries. cbn [older here newer rev].
      rewrite Nw, T. cbn [rev]. rewrite <- app_assoc. reflexivity.
    + destruct (older e) as [|n ns]; [exact T|]. unfold text_of. cbn [before after here].
      rewrite rev_involutive, app_nil_r. reflexivity.
    + unfold text_of at 1. cbn [before after put here]. rewrite rev_involutive, app_nil_r. exact T.
Qed.

Lemma typing_app room keys : forall e keys' e' rest, typing room e keys = (More e', rest) ->
  rest = [] /\ typing room e (keys ++ keys') = typing room e' keys'.
Proof.
  induction keys as [|k keys IH]; intros e keys' e' rest; cbn [typing app].
  - intros [= <- <-]. auto.
  - destruct k; try discriminate; try apply IH. destruct (text_of e); [discriminate|apply IH].
Qed.

Lemma ups room n : forall e, n <= length (older e) ->
  exists e', typing room e (repeat KArrowUp n) = (More e', []) /\
    older e' = skipn n (older e) /\
    (0 < n -> nth_error (older e) (n - 1) = Some (text_of e') /\ after e' = []).
Proof.
  induction n as [|n IH]; intros e L.
  - exists e. cbn. repeat split; lia.
  - cbn [repeat typing edit]. destruct (older e) as [|o os] eqn:O; cbn [length] in L; [lia|].
    destruct (IH (mkEditor (rev o) [] os o (text_of e :: newer e))) as (e' & T & O' & X); cbn [older] in *; [lia|].
    exists e'. split; [exact T|]. split; [exact O'|]. intros _.
    destruct n as [|n].
    + cbn [repeat typing] in T. injection T as <-. cbn. unfold text_of. cbn [before after].
      rewrite rev_involutive, app_nil_r. auto.
    + destruct X as [X Y]; [lia|]. split; [|exact Y].
      replace (S (S n) - 1) with (S (S n - 1)) by lia. exact X.
Qed.
