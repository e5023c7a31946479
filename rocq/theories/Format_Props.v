(** C48: paging; C49: refilling paragraphs. *)
From Coq Require Import String.
From Verif Require Import Base Text_Model Strings_Model Format_Model Format_Spec Format_Proofs.
Local Open Scope string_scope.
Local Open Scope list_scope.
Local Open Scope nat_scope.

(** At every moment of a paged output on a screen of [width] by [height] cells, the rows used
    since the last prompt leave one for the prompt, or the prompt comes next.  All the output
    appears, in order. *)
Theorem C48_screenful : forall width height narrow wide ops keys ev r,
  0 < width -> 0 < height ->
  pager_run true (pager_new width height narrow wide) ops keys = (ev, r) ->
  r <> PgPanic /\
  (forall a b, ev = a ++ b ->
     rows_since_prompt (@length N) width a < height - 1 \/ rows_since_prompt (@length N) width a = 0 \/
     exists m b', b = PPrompt m :: b') /\
  (exists done rest, ops = done ++ rest /\
     filter (fun e => negb (is_prompt e)) ev = map op_event done /\
     (forall p' k', r = PgOk p' k' -> rest = [])).
Proof.
  intros width height narrow wide ops keys ev r W H R.
  destruct (paged_run ops (pager_new width height narrow wide) keys ev r) as (P & Np & O & _);
    try (cbn [pager_new pg_x pg_y pg_lines]; lia); [exact R|].
  split; [exact Np|]. split; [|exact O].
  intros a b E. cbn [pager_new pg_x pg_y pg_lines pg_columns] in P.
  destruct (P a b E) as [[K|[K|K]] _]; auto.
  - right. left. unfold rows_since_prompt.
    pose proof (rows_used_mono (@length N) utf8_len width a chars_le_bytes 0 0 0 0 (le_n _) (le_n _)). lia.
  - left. unfold rows_since_prompt.
    pose proof (rows_used_mono (@length N) utf8_len width a chars_le_bytes 0 0 0 0 (le_n _) (le_n _)). lia.
Qed.
Print Assumptions C48_screenful.

(** The prompt appears only when the rows used, measuring texts in bytes, fill the screen; each
    prompt takes one key, and Escape or an interrupt at one ends the output there. *)
Theorem C48_prompts : forall width height narrow wide ops keys ev r,
  0 < width -> 0 < height ->
  pager_run true (pager_new width height narrow wide) ops keys = (ev, r) ->
  (forall a b m, ev = a ++ PPrompt m :: b -> height - 1 <= rows_since_prompt utf8_len width a) /\
  exists used, match r with
     | PgOk _ keys' => keys = used ++ keys' /\ length used = length (filter is_prompt ev) /\ Forall (eq false) used
     | PgInterrupted => exists more, keys = used ++ true :: more /\
         length (filter is_prompt ev) = S (length used) /\ Forall (eq false) used
     | PgNoKey => keys = used /\ length (filter is_prompt ev) = S (length used) /\ Forall (eq false) used
     | PgPanic => False
     end.
Proof.
  intros width height narrow wide ops keys ev r W H R.
  destruct (paged_run ops (pager_new width height narrow wide) keys ev r) as (P & Np & _ & O);
    try (cbn [pager_new pg_x pg_y pg_lines]; lia); [exact R|].
  split; [|exact O]. intros a b m E. cbn [pager_new pg_x pg_y pg_lines pg_columns] in P.
  destruct (P a _ E) as [_ K]. eapply K. reflexivity.
Qed.
Print Assumptions C48_prompts.

(** Without an interactive console nothing is paged. *)
Theorem C48_not_interactive : forall width height narrow wide ops keys,
  pager_run false (pager_new width height narrow wide) ops keys =
  (map op_event ops, PgOk (pager_new width height narrow wide) keys).
Proof. intros. apply quiet_run. Qed.
Print Assumptions C48_not_interactive.

Example C48_case :
  pager_run true (pager_new 10 4 (u "more") (u "wide")) [OpPrint (u "a"); OpWrite (u "0123456789"); OpPrint (u "b"); OpPrint (u "c")] [false] =
  ([PLine (u "a"); PText (u "0123456789"); PLine (u "b"); PPrompt (u "more"); PLine (u "c")],
   PgOk (mkPager 10 4 (u "more") 0 1) []).
Proof. reflexivity. Qed.

(** * C49 *)

(** The lines hold the words of the paragraph in order, within the width unless a line is one
    word, each line as full as possible; the words of a paragraph are what [words_of] says, which
    determines them. *)
Theorem C49_refill : forall p width, p <> [] ->
  exists lines ws, refill p width = Some lines /\ words_of p ws /\ filled width ws lines.
Proof.
  intros p width Np. destruct (refill_filled p width Np) as (lines & R & F).
  exists lines, (split_whitespace p). split; [exact R|]. split; [apply split_words|exact F].
Qed.
Print Assumptions C49_refill.

Theorem C49_words_unique : forall s a b, words_of s a -> words_of s b -> a = b.
Proof. intros. eapply words_of_det; eassumption. Qed.
Print Assumptions C49_words_unique.

(** Reading the words of the lines back gives the words of the paragraph, and no line exceeds
    the width unless it is one word. *)
Theorem C49_words_and_width : forall p width lines ws, p <> [] -> words_of p ws ->
  refill p width = Some lines ->
  (exists groups, concat groups = ws /\ length groups = length lines /\
     forall i l, nth_error lines i = Some l ->
       exists g, nth_error groups i = Some g /\ words_of l g) /\
  (forall l, In l lines -> utf8_len l < width \/ In l ws).
Proof.
  intros p width lines ws Np W R. destruct (refill_filled p width Np) as (lines' & R' & F).
  assert (lines' = lines) by congruence. subst lines'.
  assert (split_whitespace p = ws) by (eapply words_of_det; [apply split_words|exact W]). subst ws.
  destruct F as (groups & C & -> & G1 & G2 & _). split.
  - exists groups. split; [exact C|]. split; [rewrite map_length; reflexivity|].
    intros i l H. rewrite nth_error_map in H. destruct (nth_error groups i) as [g|] eqn:E; [|discriminate].
    injection H as <-. exists g. split; [reflexivity|]. apply words_of_line.
    pose proof (words_nonempty _ _ W) as A. rewrite <- C in A. rewrite Forall_forall in *.
    intros w I. apply A. apply in_concat. exists g. split; [eapply nth_error_In; exact E|exact I].
  - intros l H. apply in_map_iff in H as (g & <- & I).
    rewrite Forall_forall in G2. destruct (G2 g I) as [L|L]; [|auto]. right.
    destruct g as [|w [|]]; try discriminate. cbn. rewrite <- C. apply in_concat.
    exists [w]. split; [exact I|left; reflexivity].
Qed.
Print Assumptions C49_words_and_width.

(** An empty paragraph is an empty line. *)
Theorem C49_empty : forall width, refill [] width = Some [[]].
Proof. reflexivity. Qed.
Print Assumptions C49_empty.

(** Several paragraphs: separated by an empty line, every line indented, and no line wider than
    the console less four columns unless it holds one word; provided the indentation leaves
    room. *)
Theorem C49_paragraphs : forall ps indent width,
  (forall p, In p ps -> 4 + utf8_len indent + utf8_len (extra_indent p) <= width) ->
  exists blocks, refill_many ps indent width =
      Some (concat (match blocks with [] => [] | b :: r => b :: map (cons []) r end)) /\
    length blocks = length ps /\
    forall i p b, nth_error ps i = Some p -> nth_error blocks i = Some b ->
      exists lines, refill p (width - 4 - utf8_len indent - utf8_len (extra_indent p)) = Some lines /\
        b = map (fun l => match l with [] => [] | _ => indent ++ extra_indent p ++ l end) lines.
Proof.
  intros ps indent width H. unfold refill_many.
  assert (G : forall first, exists blocks, refill_paragraphs first indent width ps =
      Some (concat (if first then match blocks with [] => [] | b :: r => b :: map (cons []) r end
                    else map (cons []) blocks)) /\
    length blocks = length ps /\
    forall i p b, nth_error ps i = Some p -> nth_error blocks i = Some b ->
      exists lines, refill p (width - 4 - utf8_len indent - utf8_len (extra_indent p)) = Some lines /\
        b = map (fun l => match l with [] => [] | _ => indent ++ extra_indent p ++ l end) lines).
  { induction ps as [|p ps IH]; intros first.
    - exists []. split; [destruct first; reflexivity|]. split; [reflexivity|]. intros [|i]; discriminate.
    - destruct (IH (fun q I => H q (or_intror I)) false) as (bs & R & L & B).
      assert (Rp : exists lines, refill p (width - 4 - utf8_len indent - utf8_len (extra_indent p)) = Some lines).
      { destruct p as [|c p]; [eexists; reflexivity|].
        destruct (refill_filled (c :: p) (width - 4 - utf8_len indent - utf8_len (extra_indent (c :: p))))
          as (lines & E & _); [discriminate|eauto]. }
      destruct Rp as (lines & Rp).
      exists (map (fun l => match l with [] => [] | _ => indent ++ extra_indent p ++ l end) lines :: bs).
      cbn [refill_paragraphs]. specialize (H p (or_introl eq_refl)).
      destruct (Nat.ltb_spec width (4 + utf8_len indent + utf8_len (extra_indent p))); [lia|].
      rewrite Rp, R. split; [|split].
      + destruct first; cbn [map concat app]; reflexivity.
      + cbn. rewrite L. reflexivity.
      + intros [|i] q b Hq Hb; cbn in Hq, Hb.
        * injection Hq as <-. injection Hb as <-. eauto.
        * eauto. }
  destruct (G true) as (bs & R & L & B). eauto.
Qed.
Print Assumptions C49_paragraphs.

(** The width left for the text can go below zero: with an indentation wider than the console
    less four columns the computation overflows. *)
Theorem C49_narrow_refuted : exists p width, p <> [] /\ refill_many [p] [] width = None.
Proof. exists (u "hello"), 3. split; [discriminate|reflexivity]. Qed.
Print Assumptions C49_narrow_refuted.

Example C49_case :
  refill (u "One. Two three.  four extraordinarily") 12 =
  Some [u "One.  Two"; u "three. four"; u "extraordinarily"].
Proof. reflexivity. Qed.
