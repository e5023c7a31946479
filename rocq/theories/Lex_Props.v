(** Claims C24, C25, C26 and C55: positions, literals and tokens of source text. *)
From Coq Require Import String Sorted.
From Verif Require Import Base Bytecode_Model Vm_Model Ast_Model Lex_Model Lex_Spec Lex_Proofs.
Local Open Scope string_scope.
Local Open Scope N_scope.
Local Open Scope list_scope.

(** Stand-ins for the Unicode tables in the examples. *)
Definition alnum_ (c : N) : bool :=
  ((48 <=? c) && (c <=? 57)) || ((65 <=? c) && (c <=? 90)) || ((97 <=? c) && (c <=? 122)).
Definition numeric_ (c : N) : bool := (48 <=? c) && (c <=? 57).
Definition upper_ (c : N) : list N := [upper1 c].
Lemma tables_ : tables_ok alnum_ numeric_ upper_.
Proof. constructor; reflexivity. Qed.

(** * C24: positions *)

(** Whatever way the source hands over its text in pieces, and in whatever way reads and peeks are
    mixed, the reader gives the characters of the text in order, each with the position that its
    preceding text says; then the end, or the source's error. *)
Theorem C24_positions : forall pieces fails after_error ops,
  run_reader ops (reader_from (map Ok pieces ++ if fails : bool then Err tt :: after_error else [])) =
  script (concat pieces) fails 0 ops.
Proof.
  intros pieces fails after_error ops. apply run_script. apply reader_from_stands.
  destruct fails; cbn [tail_ok]; [eexists; reflexivity|reflexivity].
Qed.
Print Assumptions C24_positions.

(** Tabs go to the next multiple of eight. *)
Theorem C24_tab_stops : forall w,
  w < next_stop w /\ (8 | next_stop w) /\ forall m, (8 | m) -> w < m -> next_stop w <= m.
Proof. exact next_stop_least. Qed.
Print Assumptions C24_tab_stops.

(** The lexer's input, a text with the position of its first character, is what the reader gives. *)
Theorem C24_reader : forall text k c, nth_error text k = Some c ->
  position text 0 = (1, 1) /\ position text (S k) = advance (position text k) c /\
  position text (length text) = after text (1, 1).
Proof.
  intros text k c H. split; [reflexivity|]. split; [apply position_S; exact H|].
  unfold position. rewrite firstn_all. apply position_after_fold.
Qed.
Print Assumptions C24_reader.

(** Every token of a text carries the position of a character, in the order of the text, and the
    end of the tokens is the end of the text. *)
Theorem C24_token_positions : forall alnum numeric uc text toks e, tokens alnum numeric uc text = (toks, e) ->
  e = position text (length text) /\
  exists offsets, StronglySorted lt offsets /\ Forall (fun k => (k < length text)%nat) offsets /\
    Forall2 (fun tok k => snd tok = position text k) toks offsets.
Proof.
  intros alnum numeric uc text toks e H. unfold tokens in H.
  apply read_all_positions in H; [|lia|split; cbn; lia].
  destruct H as (ks & F & SS & B & E).
  split.
  - rewrite E. unfold position. rewrite firstn_all. symmetry. apply position_after_fold.
  - exists ks. repeat split; auto. clear -F. induction F as [|a k l ks E F IH]; constructor; auto.
    unfold position. rewrite position_after_fold. exact E.
Qed.
Print Assumptions C24_token_positions.

Example C24_case :
  let text := u "A" ++ [9; 66; 10; 9; 9] ++ u "xyz" ++ [9] ++ u "k" in
  map (position text) (seq 0 11) =
    [(1, 1); (1, 2); (1, 9); (1, 10); (2, 1); (2, 9); (2, 17); (2, 18); (2, 19); (2, 20); (2, 25)] /\
  run_reader [OpPeek; OpPeek; OpNext; OpNext; OpPeek; OpNext; OpNext; OpPeek]
    (reader_from [Ok (u "A" ++ [9; 66; 10]); Err tt]) =
    [Some (Ok (65, (1, 1))); Some (Ok (65, (1, 1))); Some (Ok (65, (1, 1))); Some (Ok (9, (1, 2)));
     Some (Ok (66, (1, 9))); Some (Ok (66, (1, 9))); Some (Ok (10, (1, 10)));
     Some (Err SourceError)] /\
  tokens alnum_ numeric_ upper_ (u "a =" ++ [10; 9] ++ u "7 ' note") =
    ([(TkSymbol (mkVarRef (u "a") None), (1, 1)); (TkEqual, (1, 3)); (TkEol, (1, 4));
      (TkInteger 7, (2, 9))], (2, 17)).
Proof. vm_compute. repeat split; reflexivity. Qed.

Local Ltac HASH := first [exact eq_refl|assumption].
Local Ltac in_table := match goal with I : In _ punctuation |- _ =>
  unfold punctuation in I; cbn [In] in I;
  repeat (destruct I as [I|I]; [discriminate I|]); exact I end.
Local Ltac keyword_case := match goal with K : keyword _ = Some _ |- _ =>
  apply keyword_plain in K; exact K end.

(** * C25: integer literals *)

(** A decimal literal of any length is its value, or an error from 2^31 on. *)
Theorem C25_decimal : forall alnum numeric uc digits v rest p,
  numeral 10 digits v -> word_ends rest ->
  fst (read alnum numeric uc (digits ++ rest, p)) =
    (if v <? 2 ^ 31 then TkInteger (Z.of_N v) else TkBad (MBadInteger digits), p) /\
  (v < 2 ^ 31 -> fst (snd (read alnum numeric uc (digits ++ rest, p))) = rest).
Proof.
  intros alnum numeric uc digits v rest p Hn E.
  destruct (read_decimal alnum numeric uc digits v rest p Hn E) as (c & r & -> & D & R).
  rewrite read_no_hash by (apply starts_with_hash_spec; apply is_ascii_digit_spec in D; lia).
  cbn [app read_token].
  assert (is_space c = false) as ->.
  { apply is_ascii_digit_spec in D. destruct (is_space c) eqn:X; [|reflexivity].
    apply is_space_spec in X. unfold blank in X. cbn [In] in X. lia. }
  rewrite R. destruct (v <? 2 ^ 31) eqn:L; cbn [fst snd handle_bad_read]; split; auto.
  intros X. apply N.ltb_lt in X. congruence.
Qed.
Print Assumptions C25_decimal.

(** A literal with a base is the 32-bit number that its digits denote, with those bits, or an error
    from 2^32 on. *)
Theorem C25_based : forall alnum numeric uc c base us digits v rest p,
  base_letter c base -> us = [] \/ us = u "_" -> numeral base digits v -> word_ends rest ->
  exists tok, fst (read alnum numeric uc (38 :: c :: us ++ digits ++ rest, p)) = (tok, p) /\
    if v <? 2 ^ 32 then
      fst (snd (read alnum numeric uc (38 :: c :: us ++ digits ++ rest, p))) = rest /\
      exists z, tok = TkInteger z /\ (- 2 ^ 31 <= z < 2 ^ 31)%Z /\ (z mod 2 ^ 32 = Z.of_N v)%Z
    else tok = TkBad (MBadInteger digits).
Proof.
  intros alnum numeric uc c base us digits v rest p Hb Hu (ds & Hs & F & B & V) E.
  rewrite read_no_hash by HASH. cbn [read_token]. change (is_space 38) with false. cbv iota.
  pose proof (base_letter_le _ _ Hb) as LB.
  rewrite (read_based alnum numeric uc c base us digits rest p) by
    (first [assumption|apply (Forall_impl _ (P := fun c : N => is_ascii_digit c || is_hex_letter c = true /\
       (base <= 10 -> 48 <= c <= 57) /\ c <> 46 /\ c <> 95)); [tauto|];
       apply (numeral_chars base digits ds); [lia|exact F|exact B]]).
  rewrite (from_radix_complete _ base _ _ ds) by (auto; lia).
  cbn [N.mul]. rewrite N.add_0_l, <- V. destruct digits as [|x y]; [congruence|].
  destruct (v <? 2 ^ 32) eqn:L.
  - apply N.ltb_lt in L. rewrite (proj2 (N.leb_le _ _)) by lia.
    eexists. split; [reflexivity|]. split; [reflexivity|].
    exists (u32_as_i32 v). split; [reflexivity|]. apply u32_as_i32_spec. exact L.
  - apply N.ltb_ge in L. rewrite (proj2 (N.leb_gt _ _)) by lia.
    eexists. split; [reflexivity|]. reflexivity.
Qed.
Print Assumptions C25_based.

(** Digits that do not belong to the base, or no digits at all, are errors. *)
Theorem C25_wrong_digits : forall alnum numeric uc c base us digits rest p,
  base_letter c base -> us = [] \/ us = u "_" ->
  Forall (fun d => exists k, k < 16 /\ digit_value d k) digits ->
  (forall v, ~ numeral base digits v) -> word_ends rest -> rest <> [] \/ digits <> [] ->
  exists m, fst (read alnum numeric uc (38 :: c :: us ++ digits ++ rest, p)) = (TkBad m, p).
Proof.
  intros alnum numeric uc c base us digits rest p Hb Hu F Hn E NE.
  rewrite read_no_hash by HASH. cbn [read_token]. change (is_space 38) with false. cbv iota.
  pose proof (base_letter_le _ _ Hb) as LB.
  destruct digits as [|x y].
  - cbn [app]. change (read_from alnum numeric uc 38 p (c :: us ++ rest, advance p 38))
      with (consume_integer_with_base p (c :: us ++ rest, advance p 38)).
    unfold consume_integer_with_base. rewrite (proj2 (base_of_spec c base) Hb).
    destruct rest as [|d r]; [destruct NE; congruence|].
    destruct Hu as [->| ->].
    + cbn [app]. cbn [word_ends] in E. pose proof (ends_word_not d E) as (_ & _ & _ & Hd & _).
      rewrite (proj2 (N.eqb_neq d 95) Hd). rewrite integer_stop by exact E.
      exists MNoDigits. reflexivity.
    + change (u "_" ++ d :: r) with (95 :: d :: r). change (95 =? 95) with true. cbv iota.
      rewrite integer_stop by exact E. exists MNoDigits. reflexivity.
  - assert (F2 : Forall (fun c => is_ascii_digit c || is_hex_letter c = true /\ c <> 46 /\ c <> 95) (x :: y)).
    { eapply Forall_impl; [|exact F]. cbv beta. intros d (k & K1 & K2).
      destruct (digit_char d k 16 K2 K1 ltac:(lia)) as (D1 & _ & D2 & D3). auto. }
    rewrite (read_based alnum numeric uc c base us (x :: y) rest p) by (auto; discriminate).
    rewrite from_radix_bad_digit.
    + eexists. reflexivity.
    + lia.
    + intros ds F3 B. apply (Hn (positional base ds)). exists ds. repeat split; auto. discriminate.
Qed.
Print Assumptions C25_wrong_digits.

(** Nothing else is read as an integer. *)
Theorem C25_only_literals : forall alnum numeric uc t p z q t' p', starts_with_hash t = false -> read alnum numeric uc (t, p) = ((TkInteger z, q), (t', p')) ->
  exists blanks literal, t = blanks ++ literal ++ t' /\ Forall blank blanks /\ int_literal literal z /\
    word_ends t' /\ q = after blanks p.
Proof.
  intros alnum numeric uc t p z q t' p' Hs H. rewrite read_no_hash in H by exact Hs.
  apply (read_token_spelled alnum numeric uc) in H; [|intros ? ?; discriminate|discriminate|discriminate].
  destruct H as (sp & w & -> & F & SP & ->). exists sp, w. repeat split; auto.
  all: inversion SP; subst; auto; try (exfalso; first [in_table|keyword_case]).
Qed.
Print Assumptions C25_only_literals.

Example C25_case :
  let r := fun s => fst (read alnum_ numeric_ upper_ (u s, (1, 1))) in
  r "0000000000000000000000007 " = (TkInteger 7, (1, 1)) /\
  r "2147483647" = (TkInteger 2147483647, (1, 1)) /\
  fst (r "2147483648") = TkBad (MBadInteger (u "2147483648")) /\
  r "&xffffFFFF)" = (TkInteger (-1), (1, 1)) /\ r "&B_1010:" = (TkInteger 10, (1, 1)) /\
  r "&d4294967295" = (TkInteger (-1), (1, 1)) /\
  fst (r "&x100000000") = TkBad (MBadInteger (u "100000000")) /\
  fst (r "&o18") = TkBad (MBadInteger (u "18")) /\ fst (r "&x ") = TkBad MNoDigits /\
  (forall v, ~ numeral 8 (u "18") v) /\ numeral 16 (u "fF") 255.
Proof.
  split; [vm_compute; reflexivity|]. repeat (split; [vm_compute; reflexivity|]). split.
  - intros v (ds & _ & F & B & _). inversion F as [|a x l l' D1 F1]; subst. inversion F1 as [|a2 y l2 l2' D2 F2]; subst.
    inversion B as [|? ? _ B1]; subst. inversion B1 as [|? ? B2 _]; subst.
    assert (H : y = 0 \/ y = 1 \/ y = 2 \/ y = 3 \/ y = 4 \/ y = 5 \/ y = 6 \/ y = 7) by lia.
    repeat (destruct H as [->|H]; [destruct D2 as [D2|D2]; vm_compute in D2; discriminate D2|]).
    subst y. destruct D2 as [D2|D2]; vm_compute in D2; discriminate D2.
  - exists [15; 15]. split; [discriminate|]. split; [repeat constructor; vm_compute; tauto|].
    split; [repeat constructor|vm_compute; reflexivity].
Qed.

(** * C26: text literals *)

(** Every text can be written between quotes and is read back as it was. *)
Theorem C26_round_trip : forall alnum numeric uc t rest p,
  read alnum numeric uc (34 :: escape t ++ 34 :: rest, p) =
    ((TkText t, p), (rest, after (34 :: escape t ++ [34]) p)).
Proof.
  intros alnum numeric uc t rest p. rewrite read_no_hash by HASH.
  change (read_token alnum numeric uc (34 :: escape t ++ 34 :: rest) p)
    with (consume_text 34 [] false p (escape t ++ 34 :: rest) (advance p 34)).
  rewrite (text_body 34 p (escape t) t eq_refl (escape_quoted t)). reflexivity.
Qed.
Print Assumptions C26_round_trip.

(** A body stands for the text that its escapes say. *)
Theorem C26_quoted : forall alnum numeric uc body t rest p, quoted body t ->
  read alnum numeric uc (34 :: body ++ 34 :: rest, p) =
    ((TkText t, p), (rest, after (34 :: body ++ [34]) p)).
Proof.
  intros alnum numeric uc body t rest p Q. rewrite read_no_hash by HASH.
  change (read_token alnum numeric uc (34 :: body ++ 34 :: rest) p)
    with (consume_text 34 [] false p (body ++ 34 :: rest) (advance p 34)).
  rewrite (text_body 34 p body t eq_refl Q). reflexivity.
Qed.
Print Assumptions C26_quoted.

(** Nothing else is read as a text. *)
Theorem C26_only_quoted : forall alnum numeric uc t p s q t' p',
  starts_with_hash t = false -> read alnum numeric uc (t, p) = ((TkText s, q), (t', p')) ->
  exists blanks body, t = blanks ++ 34 :: body ++ 34 :: t' /\ Forall blank blanks /\ quoted body s /\
    q = after blanks p.
Proof.
  intros alnum numeric uc t p s q t' p' Hs H. rewrite read_no_hash in H by exact Hs.
  apply (read_token_spelled alnum numeric uc) in H; [|intros ? ?; discriminate|discriminate|discriminate].
  destruct H as (sp & w & -> & F & SP & ->).
  inversion SP as [| | | | |b t1 rest Q| | | | |]; subst; try (exfalso; first [in_table|keyword_case]).
  exists sp, b. cbn [app]. rewrite <- app_assoc. repeat split; auto.
Qed.
Print Assumptions C26_only_quoted.

(** A quote without its match is an error at the quote, whatever follows. *)
Theorem C26_unterminated : forall alnum numeric uc t p,
  (forall body rest s, t = body ++ 34 :: rest -> ~ quoted body s) ->
  exists m, fst (read alnum numeric uc (34 :: t, p)) = (TkBad m, p).
Proof.
  intros alnum numeric uc t p H. rewrite read_no_hash by HASH.
  change (read_token alnum numeric uc (34 :: t) p) with (consume_text 34 [] false p t (advance p 34)).
  destruct (text_open p t [] false (advance p 34)) as (m & q & E).
  - intros b1 b2 s. destruct (list_eq_dec N.eq_dec t (b1 ++ 34 :: b2)) as [X|X]; [right|left; exact X].
    apply (H b1 b2 s X).
  - exists m. rewrite E. reflexivity.
Qed.
Print Assumptions C26_unterminated.

(** Different texts are never written the same. *)
Theorem C26_one_meaning : forall body t t', quoted body t -> quoted body t' -> t = t'.
Proof.
  intros body t t' Q Q'.
  pose proof (C26_quoted alnum_ numeric_ upper_ body t [] (1, 1) Q) as A.
  pose proof (C26_quoted alnum_ numeric_ upper_ body t' [] (1, 1) Q') as B. congruence.
Qed.
Print Assumptions C26_one_meaning.

(** Reading always ends: any amount of fuel above the length of the text gives the same tokens. *)
Theorem C26_lexer_terminates : forall alnum numeric uc t fuel, (length t < fuel)%nat ->
  read_all alnum numeric uc fuel (t, (1, 1)) = tokens alnum numeric uc t.
Proof. intros alnum numeric uc t fuel H. apply read_all_fuel; cbn [fst]; lia. Qed.
Print Assumptions C26_lexer_terminates.

Example C26_case :
  let q := [34] in
  let s := u "say " ++ q ++ u "hi\" ++ q ++ [10; 8364] in
  escape s = u "say \" ++ q ++ u "hi\\\" ++ q ++ [10; 8364] /\
  fst (read alnum_ numeric_ upper_ (q ++ escape s ++ q, (3, 4))) = (TkText s, (3, 4)) /\
  fst (read alnum_ numeric_ upper_ (q ++ u "a\" ++ q, (3, 4))) = (TkBad (MIncompleteString (u "a" ++ q)), (3, 4)).
Proof. vm_compute. repeat split; reflexivity. Qed.

(** * C55: tokens *)

(** A text is read as tokens exactly when it is those tokens' spellings, blanks and comments. *)
Theorem C55_tokens : forall alnum numeric uc, tables_ok alnum numeric uc ->
  forall t l e, starts_with_hash t = false ->
  (tokenised alnum numeric uc t (1, 1) l e <->
   tokens alnum numeric uc t = (l, e) /\ forall m q, ~ In (TkBad m, q) l).
Proof.
  intros alnum numeric uc TO t l e Hs. split.
  - intros T. split; [apply (tokenised_read_all alnum numeric uc TO); [exact T|lia]|].
    clear Hs. induction T as [| |sp cs body rest p l e F CS N1 T IH|sp w tok rest p l e F SP T IH];
      intros m q I; try (destruct I; fail).
    + destruct I as [I|I]; [discriminate I|exact (IH m q I)].
    + destruct I as [I|I]; [|exact (IH m q I)].
      apply pair_equal_spec in I. destruct I as [-> _].
      destruct (spells_token alnum numeric uc _ _ _ SP) as [_ X]. exact (X m eq_refl).
  - intros [T G]. apply (read_all_tokenised alnum numeric uc (S (length t))); auto; [split; cbn; lia|right; exact Hs|].
    apply Forall_forall. intros [tok q] I m X. cbn [fst] in X. subst tok. exact (G m q I).
Qed.
Print Assumptions C55_tokens.

(** So no text has two meanings. *)
Theorem C55_one_meaning : forall alnum numeric uc, tables_ok alnum numeric uc ->
  forall t p l e l' e', tokenised alnum numeric uc t p l e -> tokenised alnum numeric uc t p l' e' ->
  l = l' /\ e = e'.
Proof.
  intros alnum numeric uc TO t p l e l' e' A B.
  pose proof (tokenised_read_all alnum numeric uc TO _ _ _ _ A (S (length t)) ltac:(lia)) as X.
  pose proof (tokenised_read_all alnum numeric uc TO _ _ _ _ B (S (length t)) ltac:(lia)) as Y.
  rewrite X in Y. apply pair_equal_spec in Y. exact Y.
Qed.
Print Assumptions C55_one_meaning.

(** Names that differ in case only are the same keyword. *)
Theorem C55_keywords_any_case : forall alnum numeric uc, tables_ok alnum numeric uc ->
  forall w w' k rest, ascii_upper w = ascii_upper w' -> Forall (fun c => c < 128) (w ++ w') ->
  word alnum w -> word alnum w' -> keyword (flat_map uc w) = Some k -> word_ends rest ->
  spells alnum numeric uc k w rest /\ spells alnum numeric uc k w' rest.
Proof.
  intros alnum numeric uc TO w w' k rest E A W W' K R.
  assert (U : forall x, Forall (fun c => c < 128) x -> flat_map uc x = ascii_upper x).
  { induction x as [|c r IH]; intros X; [reflexivity|]. inversion X; subst.
    cbn [flat_map ascii_upper map]. rewrite (to_upper _ _ _ TO) by assumption.
    cbn [app]. f_equal. apply IH. assumption. }
  apply Forall_app in A. destruct A as [A A'].
  split; apply sp_keyword; auto. rewrite U, <- E, <- U; auto.
Qed.
Print Assumptions C55_keywords_any_case.

(** A first line starting with [#!] counts for positions only. *)
Theorem C55_shebang : forall alnum numeric uc, tables_ok alnum numeric uc ->
  forall line rest l e, ~ In 10 line -> tokenised alnum numeric uc rest (2, 1) l e ->
  tokens alnum numeric uc (u "#!" ++ line ++ 10 :: rest) = (l, e).
Proof.
  intros alnum numeric uc TO line rest l e H T.
  rewrite <- (tokenised_read_all alnum numeric uc TO _ _ _ _ T (S (length (u "#!" ++ line ++ 10 :: rest)))).
  - apply read_all_shebang. exact H.
  - rewrite !app_length. cbn [length]. lia.
Qed.
Print Assumptions C55_shebang.

Example C55_case :
  tokens alnum_ numeric_ upper_ (u "#!/bin/endbasic" ++ [10] ++ u "If a$<>@lBl Then b? = nOt c:rem x") =
    ([(TkIf, (2, 1)); (TkSymbol (mkVarRef (u "a") (Some TText)), (2, 4));
      (TkNotEqual, (2, 6)); (TkLabel (u "lBl"), (2, 8)); (TkThen, (2, 13));
      (TkSymbol (mkVarRef (u "b") (Some TBoolean)), (2, 18)); (TkEqual, (2, 21)); (TkNot, (2, 23));
      (TkSymbol (mkVarRef (u "c") None), (2, 27)); (TkEol, (2, 28))], (2, 34)).
Proof. vm_compute. reflexivity. Qed.
