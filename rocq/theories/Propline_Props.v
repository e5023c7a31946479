(** The property line of scripts: C78. *)
From Coq Require Import String.
From Verif Require Import Base Text_Model Text_Proofs Propline_Model Propline_Spec Propline_Proofs.
Local Open Scope string_scope.
Local Open Scope list_scope.
Local Open Scope nat_scope.

(** The answer is the one that the second line tells, with any terminators of lines, unless the line
    has a character across its fourth and fifth bytes. *)
Theorem C78_extract : forall s r, (forall l, second_line s l -> ~ splits_char l) -> (extract_propline s = Some r <-> told s r).
Proof.
  intros s r NS.
  assert (TE : told s r -> extract_propline s = Some r).
  { intros [l spec S2 C NE|l S2 C|l x S2 C NX|NO].
    - rewrite (extract_second _ _ S2). rewrite (parse_comment l (u "console=" ++ spec) C). f_equal. apply says_spec, NE.
    - rewrite (extract_second _ _ S2). rewrite (parse_comment l (u "console=") C). reflexivity.
    - rewrite (extract_second _ _ S2), (parse_comment l x C). f_equal. apply says_invalid, NX.
    - destruct (second_or_not s) as [[l S2]|[_ E]]; [|exact E]. rewrite (extract_second _ _ S2).
      apply parse_ok_none; [intros x; apply NO, S2|apply NS, S2]. }
  split; [|exact TE]. intros E. clear TE. destruct (second_or_not s) as [[l S2]|[NO E']].
  - rewrite (extract_second _ _ S2) in E. destruct (comment_or_not l) as [[x C]|NC].
    + rewrite (parse_comment l x C) in E. assert (R : r = says l (u "endbasic cli: " ++ x)) by congruence. clear E. subst r. destruct (strip_prefix (u "console=") x) as [spec|] eqn:S1.
      * apply strip_prefix_some in S1. subst x. destruct spec as [|y spec].
        -- eapply Told_missing; eassumption.
        -- change (told s (says l (u "endbasic cli: console=" ++ y :: spec))). rewrite says_spec by discriminate. eapply Told_spec; [exact S2|exact C|discriminate].
      * pose proof (strip_prefix_none _ _ S1) as NX. rewrite (says_invalid l x NX). eapply Told_invalid; eassumption.
    + rewrite (parse_ok_none l NC (NS l S2)) in E. injection E as <-. apply Told_nothing. intros l2 x S3 C.
      pose proof (extract_second _ _ S3) as A. rewrite (extract_second _ _ S2), (parse_ok_none l NC (NS l S2)), (parse_comment l2 x C) in A.
      unfold says in A. rewrite strip_prefix_app in A. destruct (strip_prefix (u "console=") x) as [[|]|]; discriminate A.
  - rewrite E' in E. injection E as <-. apply Told_nothing. intros l x S2. destruct (NO l S2).
Qed.
Print Assumptions C78_extract.

(** It panics in that case, and only then. *)
Theorem C78_panics : forall s, extract_propline s = None <-> exists l, second_line s l /\ splits_char l.
Proof.
  intros s. split.
  - intros E. destruct (second_or_not s) as [[l S2]|[_ E']]; [|rewrite E' in E; discriminate E]. exists l. split; [exact S2|].
    apply parse_none. rewrite <- (extract_second _ _ S2). exact E.
  - intros (l & S2 & SC). rewrite (extract_second _ _ S2). apply parse_none, SC.
Qed.
Print Assumptions C78_panics.

(** Scripts in ASCII, whatever they have, have one answer. *)
Theorem C78_ascii : forall s, (forall x, In x s -> x < 128)%N -> exists r, extract_propline s = Some r /\ forall r', told s r' <-> r' = r.
Proof.
  intros s AS. assert (IN : forall s l rest x, line_of s l rest -> (In x l \/ In x rest) -> In x s).
  { clear. intros s l rest x H. destruct H; intros [I0|I0]; try exact I0; try destruct I0; apply in_or_app; [left; exact I0|right|left; exact I0|right].
    - right. right. exact I0.
    - right. exact I0. }
  assert (NS : forall l, second_line s l -> ~ splits_char l).
  { intros l (p & rest & rest' & A & B) [_ (a & x & r & -> & _ & X)]. assert (I0 : In x s).
    { apply (IN _ _ _ x A). right. apply (IN _ _ _ x B). left. apply in_or_app. right. left. reflexivity. }
    pose proof (AS x I0). lia. }
  destruct (extract_propline s) as [r|] eqn:E.
  - exists r. split; [reflexivity|]. intros r'. rewrite <- (C78_extract s r' NS), E. split; [intros X; injection X as ->; reflexivity|intros ->; reflexivity].
  - apply C78_panics in E. destruct E as (l & S2 & SC). destruct (NS l S2 SC).
Qed.
Print Assumptions C78_ascii.

(** So not every script has an answer: after the line that says what runs it, a line with two letters,
    a space and an accented letter is enough to panic. *)
Theorem C78_any_script_refuted : exists s : ustr, text s /\ extract_propline (collect s) = None /\ second_line (collect s) (collect [110; 111; 32; 241]%N).
Proof.
  exists (u "#!" ++ [10; 110; 111; 32; 241]%N). split; [|split; [reflexivity|]].
  - repeat apply Forall_cons; [reflexivity..|apply Forall_nil].
  - exists [], (collect [110; 111; 32; 241]%N), []. split.
    + apply (Line_lf (u "#!") (collect [110; 111; 32; 241]%N)); [intros [E|[E|[]]]; discriminate E|].
      intros l' E. apply (f_equal (@rev N)) in E. rewrite rev_app_distr in E. discriminate E.
    + apply Line_last; [discriminate|]. intros I0. repeat (destruct I0 as [E|I0]; [discriminate E|]). destruct I0.
Qed.
Print Assumptions C78_any_script_refuted.

(** ** Cases *)
Example C78_case : exists s, s = u "#!/usr/bin/env endbasic" ++ [13; 10]%N ++ u "Rem endbasic cli: console=sdl:fs" ++ [10%N] ++ u "PRINT 1" /\
  told s (Ok (Some (u "sdl:fs"))) /\ extract_propline s = Some (Ok (Some (u "sdl:fs"))).
Proof.
  eexists. split; [reflexivity|]. split; [|reflexivity].
  apply (Told_spec _ (u "Rem endbasic cli: console=sdl:fs")); [|right; exists (u "Rem "); split; reflexivity|discriminate].
  exists (u "/usr/bin/env endbasic"), (u "Rem endbasic cli: console=sdl:fs" ++ [10%N] ++ u "PRINT 1"), (u "PRINT 1"). split.
  - apply (Line_crlf (u "#!/usr/bin/env endbasic")). intros I0. repeat (destruct I0 as [E|I0]; [discriminate E|]). destruct I0.
  - apply (Line_lf (u "Rem endbasic cli: console=sdl:fs") (u "PRINT 1")); [intros I0; repeat (destruct I0 as [E|I0]; [discriminate E|]); destruct I0|].
    intros l' E. apply (f_equal (@rev N)) in E. rewrite rev_app_distr in E. discriminate E.
Qed.
Example C78_invalid_case : extract_propline (u "#!" ++ [10%N] ++ u "' endbasic cli: speed=9") =
    Some (Err (u "Invalid EndBASIC propline: ' endbasic cli: speed=9")) /\
  extract_propline (u "#!" ++ [10%N] ++ u "' endbasic cli: console=") = Some (Err (u "Invalid EndBASIC propline: missing console specification")) /\
  extract_propline (u "' endbasic cli: console=text") = Some (Ok None).
Proof. repeat split. Qed.
