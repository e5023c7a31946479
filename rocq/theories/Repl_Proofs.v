(** Lemmas for C50. *)
From Coq Require Import String.
From Verif Require Import Base Text_Model Text_Proofs Storage_Model Storage_Spec Storage_Proofs Storage_Props
  Readline_Model Editor_Model Editor_Spec Editor_Props Repl_Model Repl_Spec.
Local Open Scope string_scope.
Local Open Scope N_scope.
Local Open Scope list_scope.

(** * Bytes and text *)

Lemma bytes_eqb_eq : forall a b, bytes_eqb a b = true <-> a = b.
Proof.
  induction a as [|x a IH]; destruct b as [|y b]; cbn [bytes_eqb]; split; intros H; try discriminate; try reflexivity.
  - apply andb_true_iff in H as [A B]. apply N.eqb_eq in A. apply IH in B. congruence.
  - injection H as -> ->. rewrite N.eqb_refl. apply IH. reflexivity.
Qed.

Lemma from_utf8_some b t : from_utf8 b = Some t <-> Text_Proofs.text t /\ b = collect t.
Proof.
  unfold from_utf8. split.
  - destruct (forallb is_char (chars b) && bytes_eqb (collect (chars b)) b) eqn:E; [|discriminate]. intros H. injection H as <-.
    apply andb_true_iff in E as [A B]. apply bytes_eqb_eq in B. split; [|congruence]. apply Forall_forall. intros c I.
    rewrite forallb_forall in A. exact (A c I).
  - intros [T ->]. rewrite (chars_collect t T).
    assert (A : forallb is_char t = true) by (apply forallb_forall; intros c I; exact (proj1 (Forall_forall _ _) T c I)).
    rewrite A, (proj2 (bytes_eqb_eq _ _) eq_refl). reflexivity.
Qed.

(** * The editor keeps the name and the changes *)

Definition marked (e e' : editor) : Prop := e_name e' = e_name e /\ (e_dirty e = true -> e_dirty e' = true).
Lemma marked_refl e : marked e e. Proof. split; auto. Qed.
Lemma marked_trans a b c : marked a b -> marked b c -> marked a c.
Proof. intros [A1 A2] [B1 B2]. split; [congruence|auto]. Qed.

Ltac one := split; [reflexivity|cbn [e_dirty with_text with_view with_pos set_line]; auto].

Lemma press_marked w h x k e e' r ops : press w h x k e = Some (e', r, ops) -> marked e e'.
Proof.
  assert (J : forall l e e', join_next_line_into l e = Some e' -> marked e e').
  { intros l f f' H. unfold join_next_line_into in H. destruct (line_at f (S l)); [|discriminate]. destruct (line_at f l); [|discriminate].
    injection H as <-. one. }
  assert (T : forall l e e', to_insert_col l e = Some e' -> marked e e').
  { intros l f f' H. unfold to_insert_col in H. destruct (line_at f l); [|discriminate]. injection H as <-. one. }
  assert (Up : forall n e e', move_up n e = Some e' -> marked e e') by (intros n f f' H; unfold move_up in H; destruct (_ <? _)%nat in H; exact (T _ _ _ H)).
  assert (Dn : forall n e e', move_down n e = Some e' -> marked e e').
  { intros n f f' H. unfold move_down in H. destruct (_ <? _)%nat in H; [exact (T _ _ _ H)|]. destruct (minus _ _) in H; [exact (T _ _ _ H)|discriminate]. }
  assert (Q : forall o e e' r ops, quietly o = Some (e', r, ops) -> (forall f, o = Some f -> marked e f) -> marked e e').
  { intros o f f' r' ops' H M. destruct o; [|discriminate]. cbn [quietly] in H. assert (e0 = f') by congruence. subst. auto. }
  intros H. destruct k; cbn [press] in H;
    try (injection H as <- _ _; apply marked_refl);
    try (exact (Q _ _ _ _ _ H (fun f E => Up _ _ _ E))); try (exact (Q _ _ _ _ _ H (fun f E => Dn _ _ _ E))).
  all: try (injection H as <- _ _; destruct (_ <? _)%nat; one).
  all: try (destruct (minus h 2); [|discriminate]; first [exact (Q _ _ _ _ _ H (fun f E => Up _ _ _ E))|exact (Q _ _ _ _ _ H (fun f E => Dn _ _ _ E))]).
  all: try (destruct (line_at e (e_line e)); [|discriminate]; injection H as <- _ _; try destruct (_ <? _)%nat; one).
  all: try (unfold newline_key in H; destruct (line_at e (e_line e)); [|discriminate]; injection H as <- _ _; one).
  all: try (unfold tab_key in H; destruct (line_at e (e_line e)); [|discriminate]; injection H as <- _ _; one).
  all: try (unfold home_key in H; destruct (line_at e (e_line e)); [|discriminate]; injection H as <- _ _; one).
  all: try (unfold char_key in H; destruct (line_at e (e_line e)); [|discriminate]; destruct (minus w 1); [|discriminate]; injection H as <- _ _; one).
  all: try (unfold delete_key in H; destruct (line_at e (e_line e)); [|discriminate]; destruct (_ <? _)%nat in H;
    [cbv zeta in H; destruct (_ <? _)%nat in H; injection H as <- _ _; one
    |destruct (_ <? _)%nat in H; [|injection H as <- _ _; one]; destruct (join_next_line_into _ _) eqn:E in H; [|discriminate]; injection H as <- _ _; exact (J _ _ _ E)]).
  unfold backspace in H. destruct (0 <? e_col e)%nat.
  - destruct (line_at e (e_line e)); [|discriminate]. cbv zeta in H. injection H as <- _ _.
    destruct (0 <? _)%nat; one.
  - destruct (0 <? e_line e)%nat; [|injection H as <- _ _; one]. destruct (line_at e (e_line e - 1)); [|discriminate].
    destruct (join_next_line_into _ _) eqn:E; [|discriminate]. injection H as <- _ _. apply J in E. eapply marked_trans; [exact E|one].
Qed.

Lemma before_key_marked w h e r e' q ops : before_key w h e r = Some (e', q, ops) -> marked e e'.
Proof.
  unfold before_key. destruct (adjust_line h e r) as [[e1 r1]|] eqn:A; [|discriminate].
  destruct (adjust_col w e1 r1) as [[e2 r2]|] eqn:B; [|discriminate].
  destruct (draw w h e2 r2); [|discriminate]. destruct (minus _ _); [|discriminate]. destruct (minus _ _); [|discriminate].
  intros H. assert (e2 = e') by congruence. subst e2. apply (marked_trans _ e1).
  - unfold adjust_line in A. destruct (_ <? _)%nat in A; [injection A as <- _; one|]. destruct (minus _ _) in A; [|discriminate].
    destruct (_ <? _)%nat in A; [|injection A as <- _; one]. destruct (minus _ _) in A; [|discriminate]. injection A as <- _. one.
  - unfold adjust_col in B. destruct (_ <? _)%nat in B; [injection B as <- _; one|]. destruct (_ <=? _)%nat in B; [|injection B as <- _; one].
    destruct (minus _ _) in B; [|discriminate]. injection B as <- _. one.
Qed.

Lemma loop_marked w h : forall keys e r res ops, edit_loop w h keys e r = Some (res, ops) ->
  marked e (match res with Waiting e' => e' | Left e' _ => e' end).
Proof.
  induction keys as [|k keys IH]; intros e r res ops H; cbn [edit_loop] in H; destruct (before_key w h e r) as [[[e1 [x y]] ops1]|] eqn:B; try discriminate;
    apply before_key_marked in B.
  - injection H as <- _. exact B.
  - destruct (leaves k); [injection H as <- _; exact B|]. destruct (press w h x k e1) as [[[e2 r2] ops2]|] eqn:P; [|discriminate].
    apply press_marked in P. destruct (edit_loop w h keys e2 r2) as [[res' ops3]|] eqn:E; [|discriminate].
    assert (res' = res) by congruence. subst res'. exact (marked_trans _ _ _ B (marked_trans _ _ _ P (IH _ _ _ _ E))).
Qed.

Lemma edit_marked w h keys p p' : edit_program w h keys p = Some p' -> marked p p'.
Proof.
  unfold edit_program, edit, edit_interactively. destruct (edit_loop w h _ (with_a_line p) RFull) as [[res ops]|] eqn:E; [|discriminate].
  apply loop_marked in E. intros H. apply (marked_trans _ (with_a_line p)).
  - unfold with_a_line. destruct (e_content p); one.
  - destruct res as [e|e rest]; injection H as <-; exact E.
Qed.

Lemma edited_marked p p' : edited p p' -> marked p p'.
Proof. induction 1 as [p|p w h keys p' p'' E D IH]; [apply marked_refl|]. exact (marked_trans _ _ _ (edit_marked _ _ _ _ _ E) IH). Qed.
Lemma edited_then p w h keys p' p'' : edited p p' -> edit_program w h keys p' = Some p'' -> edited p p''.
Proof. induction 1 as [p|p w1 h1 k1 q q' E D IH]; intros H; [apply (E_more _ w h keys p''); [exact H|constructor]|]. apply (E_more _ w1 h1 k1 q); auto. Qed.
Lemma edited_trans p p' p'' : edited p p' -> edited p' p'' -> edited p p''.
Proof. induction 1 as [p|p w h k q q' E D IH]; intros H; [exact H|]. apply (E_more _ w h k q); auto. Qed.

(** * The question *)

Section Case.
Variables uc lc : N -> list N.

Definition agrees (a : ustr) : bool := match parse_boolean uc a with Some b => b | None => false end.
Lemma agrees_spec a : agrees a = true <-> says_yes uc a.
Proof.
  unfold agrees, parse_boolean, says_yes. set (raw := flat_map uc a). cbn [In].
  destruct (ustr_eqb raw (u "TRUE")) eqn:E1; cbn [orb].
  { apply ustr_eqb_eq in E1. split; auto. }
  destruct (ustr_eqb raw (u "YES")) eqn:E2; cbn [orb].
  { apply ustr_eqb_eq in E2. split; auto. }
  destruct (ustr_eqb raw (u "Y")) eqn:E3.
  { apply ustr_eqb_eq in E3. split; auto. }
  split.
  - destruct (_ || _); discriminate.
  - intros H. exfalso. destruct H as [H|[H|[H|[]]]]; rewrite <- H, ustr_eqb_refl in *; discriminate.
Qed.
Lemma refuse_spec a : ~ says_yes uc a -> agrees a = false.
Proof. intros H. destruct (agrees a) eqn:E; [|reflexivity]. apply agrees_spec in E. contradiction. Qed.

Definition answered (o : host) : host :=
  mkHost (o_program o) (o_storage o) (o_interactive o) (tl (o_input o)) (o_output o ++ question o) (o_actions o).
Lemma clean o : e_dirty (o_program o) = false -> continue_if_modified uc o = (o, Ok true).
Proof. intros E. unfold continue_if_modified. rewrite E. reflexivity. Qed.
Lemma asked o : e_dirty (o_program o) = true ->
  continue_if_modified uc o = (answered o, match o_input o with
    | [] => Err UnexpectedEof | Err e :: _ => Err e | Ok a :: _ => Ok (agrees a) end).
Proof.
  intros E. unfold continue_if_modified. rewrite E. cbn [negb]. unfold read_line, answered, question, agrees.
  destruct o as [p st i inp out act]. cbn [o_program o_input o_interactive o_storage o_output o_actions say with_input] in *.
  destruct i; destruct inp as [|[a|e] rest]; cbn [o_program o_input o_interactive o_storage o_output o_actions say with_input tl app];
    try reflexivity; unfold with_input, say; cbn [o_program o_input o_interactive o_storage o_output o_actions]; rewrite <- app_assoc; reflexivity.
Qed.

(** All that the question can do. *)
Lemma cim_cases o o' r : continue_if_modified uc o = (o', r) ->
  o_program o' = o_program o /\ o_storage o' = o_storage o /\ o_actions o' = o_actions o /\ o_interactive o' = o_interactive o /\
  (exists read, o_input o = read ++ o_input o' /\ (r <> Ok true -> forall a, In (Ok a) read -> ~ says_yes uc a)) /\
  match r with
  | Ok true => consents uc o o'
  | _ => e_dirty (o_program o) = true /\ o_output o' = o_output o ++ question o /\ refuses uc o
  end.
Proof.
  intros H. destruct (e_dirty (o_program o)) eqn:E.
  - rewrite (asked o E) in H. injection H as <- <-. cbn [answered o_program o_storage o_actions o_interactive o_input o_output].
    do 4 (split; [reflexivity|]). destruct (o_input o) as [|[a|e] rest] eqn:I; cbn [tl].
    + split; [exists []; split; [reflexivity|intros _ a []]|]. split; [reflexivity|]. split; [reflexivity|]. split; [exact E|].
      intros a rest J. rewrite I in J. discriminate.
    + split.
      * exists [Ok a]. split; [reflexivity|]. intros N0 b [B|[]]. injection B as <-. intros Y. apply N0. apply agrees_spec in Y. rewrite Y. reflexivity.
      * destruct (agrees a) eqn:G.
        -- right. split; [exact E|]. split; [reflexivity|]. exists a. split; [apply agrees_spec; exact G|cbn [answered o_input]; rewrite I; reflexivity].
        -- split; [reflexivity|]. split; [reflexivity|]. split; [exact E|]. intros b rest' J. rewrite I in J. injection J as <- _.
           intros Y. apply agrees_spec in Y. congruence.
    + split; [exists [Err e]; split; [reflexivity|intros _ a [B|[]]; discriminate]|]. split; [reflexivity|]. split; [reflexivity|]. split; [exact E|].
      intros a rest' J. rewrite I in J. discriminate.
  - rewrite (clean o E) in H. injection H as <- <-. do 4 (split; [reflexivity|]). split; [exists []; split; [reflexivity|intros _ a []]|].
    left. auto.
Qed.

Lemma cim_yes o : e_dirty (o_program o) = true -> (exists a rest, o_input o = Ok a :: rest /\ says_yes uc a) ->
  continue_if_modified uc o = (answered o, Ok true).
Proof. intros E (a & rest & I & Y). rewrite (asked o E), I. apply agrees_spec in Y. rewrite Y. reflexivity. Qed.

(** * Saving *)

Lemma full_name_names st raw full : upper_ok uc -> reachable uc lc st ->
  make_canonical_with_extension uc st raw default_extension = Ok full ->
  exists k n, names_file uc st full k n /\ existsb (N.eqb 46) n = true.
Proof.
  intros U R H. destruct (location_new uc raw) as [l|e] eqn:L; [|unfold make_canonical_with_extension in H; rewrite L in H; discriminate].
  destruct (location_inv uc raw l L) as (d & n & LN).
  assert (X : forall c, In c default_extension -> c <> 58 /\ c <> 92 /\ c <> 47).
  { intros c I. vm_compute in I. repeat (destruct I as [<-|I]; [repeat split; discriminate|]). destruct I. }
  destruct (C33_default_extension uc lc st raw default_extension d n U R LN X) as [A B].
  destruct n as [f|]; [|rewrite (A eq_refl) in H; discriminate]. destruct (B f eq_refl) as (t & E & LT).
  assert (t = full) by congruence. subst t. do 2 eexists. split; [eexists; split; [exact LT|reflexivity]|].
  destruct (existsb (N.eqb 46) f) eqn:HD; [exact HD|]. apply existsb_exists. exists 46. split; [|reflexivity].
  apply in_or_app. right. left. reflexivity.
Qed.
End Case.

Lemma answers_ascii uc a : upper_ok uc -> (forall c, In c a -> c < 128) ->
  (says_yes uc a <-> In (map lower1 a) [u "y"; u "yes"; u "true"]).
Proof.
  intros U A. assert (E : flat_map uc a = map upper1 a).
  { clear - U A. induction a as [|c a IH]; [reflexivity|]. cbn [flat_map map]. rewrite (uo_ascii _ U c (A c (or_introl eq_refl))), IH by (intros c' I; apply A; right; exact I). reflexivity. }
  unfold says_yes. rewrite E. clear E U A.
  assert (K : forall c, upper1 (lower1 c) = upper1 c /\ lower1 (upper1 c) = lower1 c).
  { intros c. unfold upper1, lower1.
    destruct (N.leb_spec 65 c), (N.leb_spec c 90), (N.leb_spec 97 c), (N.leb_spec c 122); cbn [andb]; try (exfalso; lia);
      repeat match goal with |- context[?x <=? ?y] => destruct (N.leb_spec x y); cbn [andb]; try (exfalso; lia) end; split; lia. }
  assert (KU : map upper1 (map lower1 a) = map upper1 a) by (rewrite map_map; apply map_ext; intros c; apply K).
  assert (KL : map lower1 (map upper1 a) = map lower1 a) by (rewrite map_map; apply map_ext; intros c; apply K).
  split; intros I.
  - rewrite <- KL. destruct I as [<-|[<-|[<-|[]]]]; vm_compute; auto.
  - rewrite <- KU. destruct I as [<-|[<-|[<-|[]]]]; vm_compute; auto.
Qed.

(** * Histories *)

Section Histories.
Variables uc lc : N -> list N.
Hypothesis U : upper_ok uc.

Lemma save_cases n o o' r : reachable uc lc (o_storage o) -> save_command uc n o = Some (o', r) ->
  o_input o' = o_input o /\ reachable uc lc (o_storage o') /\
  ((r = Ok tt /\ (exists full k f, names_file uc (o_storage o) full k f /\ names_file uc (o_storage o') full k f /\ existsb (N.eqb 46) f = true /\
      get uc full (o_storage o') = Some (Ok (collect (Editor_Model.text (o_program o)))) /\
      o_program o' = set_name full (o_program o))) \/ (exists e, r = Err e /\ o' = o)).
Proof.
  intros R H. unfold save_command in H. destruct (match n with Some name => Some name | None => e_name (o_program o) end) as [name|].
  2:{ injection H as <- <-; split; [reflexivity|split; [exact R|right; eauto]]. }
  destruct (make_canonical_with_extension _ _ _ _) as [full|e] eqn:M; [|injection H as <- <-; split; [reflexivity|split; [exact R|right; eauto]]].
  destruct (put uc full _ (o_storage o)) as [[st|e]|] eqn:P; [|injection H as <- <-; split; [reflexivity|split; [exact R|right; eauto]]|discriminate]. injection H as <- <-.
  destruct (full_name_names uc lc _ _ _ U R M) as (k & f & NF & DT).
  assert (R' : reachable uc lc st) by (exact (R_op uc lc (o_storage o) (OPut full _) st R Logic.I P)).
  split; [reflexivity|]. split; [exact R'|]. left. split; [reflexivity|]. exists full, k, f. split; [exact NF|].
  destruct (C35_put uc lc _ _ _ _ _ _ R NF P) as [G1 G2]. split; [|split; [exact DT|split; [exact G1|reflexivity]]].
  cbn [say with_program with_storage o_storage]. destruct NF as (d & L & ->). exists d. split; [exact L|]. unfold at_drive. destruct d; [reflexivity|].
  rewrite (put_file uc (o_storage o) full (st_current (o_storage o)) f _ (reachable_ok uc lc _ R)) in P by (exists None; split; [exact L|reflexivity]).
  destruct (drive_at _ _); [|discriminate]. destruct (drive_put _ _ _); [|discriminate]. injection P as <-. unfold set_drive. destruct (hm_get _ _) as [[]|]; reflexivity.
Qed.

Lemma unchanged_storage_load p o o' r : load_command uc p o = Some (o', r) -> o_storage o' = o_storage o.
Proof.
  unfold load_command. destruct (continue_if_modified uc o) as [o1 go] eqn:C. destruct (cim_cases uc o o1 go C) as (P & S & _).
  destruct go as [[|]|e]; [|intros H; injection H as <- <-; exact S|intros H; injection H as <- <-; exact S].
  destruct (make_canonical_with_extension _ _ _ _); [|intros H; injection H as <- <-; exact S].
  destruct (get _ _ _) as [[b|e]|]; [|intros H; injection H as <- <-; exact S|discriminate].
  destruct (from_utf8 b); intros H; injection H as <- <-; exact S.
Qed.

Lemma step_ready c o r o' : step uc lc c o r o' -> reachable uc lc (o_storage o) ->
  reachable uc lc (o_storage o') /\ exists read, o_input o = read ++ o_input o'.
Proof.
  intros H R. destruct H as [o r o' H|p o r o' H|n o r o' H|o r o' H|w h keys o r o' H|d o st OK P|d o e P|p o|t o|o].
  - unfold new_command in H. destruct (continue_if_modified uc o) as [o1 go] eqn:C.
    destruct (cim_cases uc o o1 go C) as (_ & S & _ & _ & (rd & I & _) & _).
    destruct go as [[|]|e]; injection H as <- <-; cbn [push with_program say o_storage o_input]; rewrite S; eauto.
  - rewrite (unchanged_storage_load _ _ _ _ H). split; [exact R|]. unfold load_command in H. destruct (continue_if_modified uc o) as [o1 go] eqn:C.
    destruct (cim_cases uc o o1 go C) as (_ & S & _ & _ & (rd & I & _) & _). exists rd. rewrite I. f_equal.
    destruct go as [[|]|e]; [|injection H as <- <-; reflexivity|injection H as <- <-; reflexivity].
    destruct (make_canonical_with_extension _ _ _ _); [|injection H as <- <-; reflexivity].
    destruct (get _ _ _) as [[b|e]|]; [|injection H as <- <-; reflexivity|discriminate].
    destruct (from_utf8 b); injection H as <- <-; reflexivity.
  - destruct (save_cases n o o' r R H) as (I & R' & _). split; [exact R'|]. exists []. symmetry. exact I.
  - injection H as <- <-. split; [exact R|]. exists []. reflexivity.
  - unfold edit_command in H. destruct (edit_program w h keys (o_program o)); [|discriminate]. injection H as <- <-. split; [exact R|]. exists []. reflexivity.
  - split; [exact (R_op uc lc _ d st R OK P)|]. exists []. reflexivity.
  - split; [exact R|]. exists []. reflexivity.
  - unfold read_line. destruct (o_interactive o); cbn [say o_input]; destruct (o_input o) as [|l rest] eqn:I; cbn [fst with_input say o_storage o_input]; (split; [exact R|]);
      try (exists []; cbn [app]; congruence); exists [l]; reflexivity.
  - split; [exact R|]. exists []. reflexivity.
  - destruct (continue_if_modified uc o) as [o1 go] eqn:C. destruct (cim_cases uc o o1 go C) as (_ & S & _ & _ & (rd & I & _) & _).
    cbn [fst]. rewrite S. eauto.
Qed.

Lemma set_name_text full p : Editor_Model.text (set_name full p) = Editor_Model.text p. Proof. reflexivity. Qed.

Lemma each_command_ c o r o' : reachable uc lc (o_storage o) -> step uc lc c o r o' -> e_dirty (o_program o) = true ->
  o_program o' = o_program o \/
  (exists w h keys, c = CEdit w h keys /\ edit_program w h keys (o_program o) = Some (o_program o') /\
     e_dirty (o_program o') = true /\ e_name (o_program o') = e_name (o_program o)) \/
  (exists n, c = CSave n /\ r = Ok tt /\ saved uc (o_program o) (o_storage o') /\
     Editor_Model.text (o_program o') = Editor_Model.text (o_program o)) \/
  ((c = CNew \/ exists p, c = CLoad p) /\ o_output o' = o_output o ++ question o /\
   exists a, says_yes uc a /\ o_input o = Ok a :: o_input o').
Proof.
  intros R H D. destruct H as [o r o' H|p o r o' H|n o r o' H|o r o' H|w h keys o r o' H|d o st OK P|d o e P|p o|t o|o].
  - unfold new_command in H. destruct (continue_if_modified uc o) as [o1 go] eqn:C.
    destruct (cim_cases uc o o1 go C) as (P & S & _ & _ & _ & G).
    destruct go as [[|]|e]; injection H as <- <-; [|left; exact P|left; exact P].
    right. right. right. split; [auto|]. destruct G as [[G _]|(_ & G1 & G2)]; [congruence|]. split; assumption.
  - unfold load_command in H. destruct (continue_if_modified uc o) as [o1 go] eqn:C.
    destruct (cim_cases uc o o1 go C) as (P & S & _ & _ & _ & G).
    destruct go as [[|]|e]; [|injection H as <- <-; left; exact P|injection H as <- <-; left; exact P].
    destruct (make_canonical_with_extension _ _ _ _); [|injection H as <- <-; left; exact P].
    destruct (get _ _ _) as [[b|e]|]; [|injection H as <- <-; left; exact P|discriminate].
    destruct (from_utf8 b); injection H as <- <-; [|left; exact P].
    right. right. right. split; [eauto|]. destruct G as [[G _]|(_ & G1 & G2)]; [congruence|]. split; assumption.
  - destruct (save_cases n o o' r R H) as (I & R' & [(-> & full & k & f & _ & _ & _ & G & E)|(e & -> & ->)]); [|left; reflexivity].
    right. right. left. exists n. split; [reflexivity|]. split; [reflexivity|]. split; [exists full; exact G|]. rewrite E. apply set_name_text.
  - injection H as <- <-. left. reflexivity.
  - unfold edit_command in H. destruct (edit_program w h keys (o_program o)) as [p|] eqn:E; [|discriminate]. injection H as <- <-.
    right. left. exists w, h, keys. split; [reflexivity|]. split; [exact E|]. destruct (edit_marked _ _ _ _ _ E) as [M1 M2]. auto.
  - left. reflexivity.
  - left. reflexivity.
  - left. unfold read_line. destruct (o_interactive o); cbn [say o_input]; destruct (o_input o); reflexivity.
  - left. reflexivity.
  - left. destruct (continue_if_modified uc o) as [o1 go] eqn:C. apply (cim_cases uc o o1 go C).
Qed.

Lemma steps_ready cs o o' : steps uc lc cs o o' -> reachable uc lc (o_storage o) ->
  reachable uc lc (o_storage o') /\ exists read, o_input o = read ++ o_input o'.
Proof.
  induction 1 as [o|c cs o r o' o'' H HS IH]; intros R; [split; [exact R|exists []; reflexivity]|].
  destruct (step_ready _ _ _ _ H R) as (R1 & r1 & E1). destruct (IH R1) as (R2 & r2 & E2). split; [exact R2|].
  exists (r1 ++ r2). rewrite E1, E2. apply app_assoc.
Qed.

Lemma never_lost_ cs o o' : steps uc lc cs o o' -> reachable uc lc (o_storage o) ->
  e_dirty (o_program o) = true -> no_consent uc o o' ->
  (edited (o_program o) (o_program o') /\ e_dirty (o_program o') = true) \/
  (exists cs1 n cs2 o1 o2, cs = cs1 ++ CSave n :: cs2 /\ steps uc lc cs1 o o1 /\ step uc lc (CSave n) o1 (Ok tt) o2 /\
     steps uc lc cs2 o2 o' /\ edited (o_program o) (o_program o1) /\ saved uc (o_program o1) (o_storage o2)).
Proof.
  induction 1 as [o|c cs o r o1 o' H HS IH]; intros R D (rd & E & NY).
  - left. split; [constructor|exact D].
  - destruct (step_ready _ _ _ _ H R) as (R1 & r1 & E1). destruct (steps_ready _ _ _ HS R1) as (_ & r2 & E2).
    assert (ER : rd = r1 ++ r2).
    { apply (app_inv_tail (o_input o')). rewrite <- app_assoc, <- E2, <- E1. symmetry. exact E. }
    assert (NC : no_consent uc o1 o').
    { exists r2. split; [exact E2|]. intros a I. apply NY. rewrite ER. apply in_or_app. right. exact I. }
    assert (K : forall q, edited (o_program o) q -> q = o_program o1 -> e_dirty q = true ->
      (edited (o_program o) (o_program o') /\ e_dirty (o_program o') = true) \/
      (exists cs1 n cs2 o1' o2, c :: cs = cs1 ++ CSave n :: cs2 /\ steps uc lc cs1 o o1' /\ step uc lc (CSave n) o1' (Ok tt) o2 /\
       steps uc lc cs2 o2 o' /\ edited (o_program o) (o_program o1') /\ saved uc (o_program o1') (o_storage o2))).
    { intros q Q1 -> Q3. destruct (IH R1 Q3 NC) as [[A B]|(cs1 & n & cs2 & o3 & o4 & -> & A1 & A2 & A3 & A4 & A5)].
      - left. split; [exact (edited_trans _ _ _ Q1 A)|exact B].
      - right. exists (c :: cs1), n, cs2, o3, o4. split; [reflexivity|]. split; [exact (SS_more uc lc c cs1 o r o1 o3 H A1)|].
        split; [exact A2|]. split; [exact A3|]. split; [exact (edited_trans _ _ _ Q1 A4)|exact A5]. }
    destruct (each_command_ _ _ _ _ R H D) as [P|[(w & h & keys & -> & P1 & P2 & _)|[(n & -> & -> & P & _)|(_ & _ & a & Y & P)]]].
    + apply (K (o_program o)); [constructor|congruence|exact D].
    + apply (K (o_program o1)); [|reflexivity|exact P2]. exact (E_more _ w h keys _ _ P1 (E_none _)).
    + right. exists [], n, cs, o, o1. split; [reflexivity|]. split; [constructor|]. split; [exact H|]. split; [exact HS|]. split; [constructor|exact P].
    + exfalso. apply (NY a); [|exact Y]. rewrite ER. apply in_or_app. left. rewrite P in E1. destruct r1 as [|x r1].
      * exfalso. cbn [app] in E1. apply (f_equal (@length _)) in E1. cbn [length] in E1. lia.
      * cbn [app] in E1. injection E1 as <- _. left. reflexivity.
Qed.

Lemma steps_app cs1 cs2 o o1 o2 : steps uc lc cs1 o o1 -> steps uc lc cs2 o1 o2 -> steps uc lc (cs1 ++ cs2) o o2.
Proof. induction 1; intros K; [exact K|]. cbn [app]. econstructor; eauto. Qed.
Lemma one_step c o r o' : step uc lc c o r o' -> steps uc lc [c] o o'.
Proof. intros H. econstructor; [exact H|constructor]. Qed.

Lemma session_ machine : (forall line o o' out, machine line o = Some (o', out) -> exists cs, steps uc lc cs o o') ->
  forall n o o' s, run_repl_loop uc machine n o = Some (o', s) -> exists cs, steps uc lc cs o o'.
Proof.
  intros M. induction n as [|n IH]; intros o o' s H.
  - injection H as <- _. exists []. constructor.
  - cbn [run_repl_loop] in H. cbv zeta in H. set (o1 := if o_interactive o then say (u "Ready") o else o) in H.
    assert (P1 : exists cs, steps uc lc cs o o1).
    { unfold o1. destruct (o_interactive o); [exists [CPrint (u "Ready")]; apply (one_step _ _ _ _ (S_print uc lc _ o))|exists []; constructor]. }
    destruct (read_line [] o1) as [o2 line] eqn:RL.
    assert (P2 : exists cs, steps uc lc cs o o2).
    { destruct P1 as (cs & P1). exists (cs ++ [CInput []]). apply (steps_app _ _ _ o1); [exact P1|].
      replace o2 with (fst (read_line [] o1)) by (rewrite RL; reflexivity). apply (one_step _ _ _ _ (S_input uc lc [] o1)). }
    clear P1 RL o1. destruct P2 as (cs & P2).
    assert (J : forall o3 o4 s, (exists cs, steps uc lc cs o2 o3) -> run_repl_loop uc machine n o3 = Some (o4, s) -> exists cs, steps uc lc cs o o4).
    { intros o3 o4 s' (cs' & A) B. destruct (IH _ _ _ B) as (cs'' & A'). exists (cs ++ cs' ++ cs'').
      apply (steps_app _ _ _ o2); [exact P2|]. apply (steps_app _ _ _ o3); assumption. }
    assert (SP : forall m t, (exists cs, steps uc lc cs o2 m) -> exists cs, steps uc lc cs o2 (say t m)).
    { intros m t (cs' & A). exists (cs' ++ [CPrint t]). apply (steps_app _ _ _ m); [exact A|]. apply (one_step _ _ _ _ (S_print uc lc t m)). }
    assert (Z0 : exists cs, steps uc lc cs o2 o2) by (exists []; constructor).
    destruct line as [line|[| |]].
    + destruct (machine line o2) as [[o3 out]|] eqn:ME; [|discriminate]. apply M in ME.
      destruct out as [|code| |msg].
      * exact (J _ _ _ ME H).
      * destruct (continue_if_modified uc o3) as [o4 go] eqn:C.
        assert (P4 : exists cs, steps uc lc cs o2 o4).
        { destruct ME as (cs' & A). exists (cs' ++ [CAsk]). apply (steps_app _ _ _ o3); [exact A|].
          replace o4 with (fst (continue_if_modified uc o3)) by (rewrite C; reflexivity). apply (one_step _ _ _ _ (S_ask uc lc o3)). }
        destruct go as [[|]|e].
        -- injection H as <- _. destruct P4 as (c4 & P4). exists (cs ++ c4). apply (steps_app _ _ _ o2); assumption.
        -- exact (J _ _ _ (SP _ _ P4) H).
        -- injection H as <- _. destruct P4 as (c4 & P4). exists (cs ++ c4). apply (steps_app _ _ _ o2); assumption.
      * exact (J _ _ _ (SP _ _ ME) H).
      * exact (J _ _ _ (SP _ _ ME) H).
    + exact (J _ _ _ (SP _ _ Z0) H).
    + injection H as <- _. destruct (SP o2 (u "End of input by CTRL-D") Z0) as (c4 & P4). exists (cs ++ c4). apply (steps_app _ _ _ o2); assumption.
    + injection H as <- _. exists cs. exact P2.
Qed.

Lemma save_load_ n o o1 : reachable uc lc (o_storage o) ->
  Text_Proofs.text (Editor_Model.text (o_program o)) -> save_command uc n o = Some (o1, Ok tt) ->
  exists full o2, e_name (o_program o1) = Some full /\ load_command uc full o1 = Some (o2, Ok tt) /\
    o_input o2 = o_input o /\ Editor_Model.text (o_program o2) = unix_text (Editor_Model.text (o_program o)).
Proof.
  intros R T H. destruct (save_cases n o o1 _ R H) as (I & R' & [(_ & full & k & f & _ & NF & DT & G & E)|(e & F & _)]); [|discriminate].
  exists full. rewrite E. cbn [set_name e_name].
  assert (D : e_dirty (o_program o1) = false) by (rewrite E; reflexivity).
  destruct NF as (d & LN & K).
  assert (X : forall c, In c default_extension -> c <> 58 /\ c <> 92 /\ c <> 47).
  { intros c J. vm_compute in J. repeat (destruct J as [<-|J]; [repeat split; discriminate|]). destruct J. }
  destruct (C33_default_extension uc lc (o_storage o1) full default_extension d (Some f) U R' LN X) as [_ B]. destruct (B f eq_refl) as (t & M & LT).
  rewrite DT in LT. unfold load_command. rewrite (clean uc o1 D), M.
  assert (NF1 : names_file uc (o_storage o1) full k f) by (exists d; split; assumption).
  assert (NF2 : names_file uc (o_storage o1) t k f).
  { eexists. split; [exact LT|]. rewrite K. cbn [at_drive]. destruct d as [d|]; cbn [at_drive].
    - symmetry. clear - U. induction d as [|c d IH]; [reflexivity|]. cbn [flat_map]. rewrite flat_map_app, IH. f_equal.
      assert (Q : forall l, (forall c', In c' l -> uc c' = [c']) -> flat_map uc l = l).
      { induction l as [|x l IHl]; intros Q; [reflexivity|]. cbn [flat_map]. rewrite (Q x (or_introl eq_refl)), IHl by (intros c' J; apply Q; right; exact J). reflexivity. }
      apply Q. intros c' J. exact (uo_again _ U _ _ J).
    - symmetry. apply (current_name uc lc (o_storage o1) U R'). }
  assert (G2 : get uc t (o_storage o1) = Some (Ok (collect (Editor_Model.text (o_program o))))).
  { pose proof (reachable_ok uc lc _ R') as W. rewrite (get_file uc _ _ _ _ W NF2), <- (get_file uc _ _ _ _ W NF1). exact G. }
  rewrite G2, (proj2 (from_utf8_some _ _) (conj T eq_refl)). eexists. split; [reflexivity|]. split; [reflexivity|]. split; [exact I|].
  cbn [push with_program o_program]. apply C42_load.
Qed.

Lemma leaving_ machine : forall n o o' s, run_repl_loop uc machine n o = Some (o', s) -> e_dirty (o_program o') = true ->
  match s with
  | Running => True
  | Stopped code =>
      (exists o1, o_program o1 = o_program o' /\ o_output o' = o_output o1 ++ question o1 /\
         exists a, says_yes uc a /\ o_input o1 = Ok a :: o_input o') \/
      (exists o1, o_program o1 = o_program o' /\
         ((code = 0%Z /\ (o_input o1 = [] \/ o_input o1 = Err UnexpectedEof :: o_input o')) \/
          (code = 1%Z /\ o_input o1 = Err OtherLineError :: o_input o')))
  | Failed e =>
      exists o1, o_program o1 = o_program o' /\ o_output o' = o_output o1 ++ question o1 /\
        (o_input o1 = Err e :: o_input o' \/ (o_input o1 = [] /\ e = UnexpectedEof))
  end.
Proof.
  induction n as [|n IH]; intros o o' s H D.
  - injection H as <- <-. exact Logic.I.
  - cbn [run_repl_loop] in H. cbv zeta in H. set (o1 := if o_interactive o then say (u "Ready") o else o) in H.
    destruct (read_line [] o1) as [o2 line] eqn:RL.
    assert (K : o_program o1 = o_program o2 /\ (o_input o1 = line :: o_input o2 \/ (o_input o1 = [] /\ line = Err UnexpectedEof))).
    { unfold read_line in RL. destruct (o_interactive o1); cbn [say o_input] in RL; destruct (o_input o1) as [|l rest] eqn:Ei; injection RL as <- <-; split; try reflexivity; auto. }
    clear RL. destruct line as [line|[| |]].
    + destruct (machine line o2) as [[o3 [|code| |msg]]|]; [exact (IH _ _ _ H D)| |exact (IH _ _ _ H D)|exact (IH _ _ _ H D)|discriminate].
      destruct (continue_if_modified uc o3) as [o4 go] eqn:C. destruct go as [[|]|e]; [|exact (IH _ _ _ H D)|].
      * injection H as <- <-. destruct (cim_cases uc o3 o4 _ C) as (P & _ & _ & _ & _ & G). left. exists o3. split; [congruence|].
        destruct G as [[G _]|(_ & G1 & G2)]; [congruence|]. split; assumption.
      * injection H as <- <-. destruct (cim_cases uc o3 o4 _ C) as (P & _). exists o3. split; [congruence|]. rewrite P in D.
        rewrite (asked uc o3 D) in C. assert (C1 : answered o3 = o4) by congruence. rewrite <- C1. split; [reflexivity|].
        cbn [answered o_input]. destruct (o_input o3) as [|[a|e'] rest]; [right|discriminate|left]; [split; [reflexivity|congruence]|].
        cbn [tl]. congruence.
    + exact (IH _ _ _ H D).
    + injection H as <- <-. right. exists o1. split; [apply K|]. left. split; [reflexivity|]. destruct K as [_ [K|[K _]]]; [right|left]; exact K.
    + injection H as <- <-. right. exists o1. split; [apply K|]. right. split; [reflexivity|]. destruct K as [_ [K|[_ K]]]; [exact K|discriminate].
Qed.

Lemma lines_ready name t p : (e_line (load name t p) < length (e_content (load name t p)))%nat \/
  (e_content (load name t p) = [] /\ e_line (load name t p) = 0%nat).
Proof. cbn [load e_line e_content]. destruct (lines t); [right; auto|left; cbn [length]; lia]. Qed.

Lemma never_panics_ o : ready uc lc o ->
  (exists o' r, new_command uc o = Some (o', r) /\ ready uc lc o') /\
  (forall p, exists o' r, load_command uc p o = Some (o', r) /\ ready uc lc o') /\
  (forall n, exists o' r, save_command uc n o = Some (o', r) /\ ready uc lc o') /\
  (forall w h keys, (1 <= w)%nat -> (2 <= h)%nat -> exists o' r, edit_command w h keys o = Some (o', r) /\ ready uc lc o').
Proof.
  intros [R L]. destruct (continue_if_modified uc o) as [o1 go] eqn:C. destruct (cim_cases uc o o1 go C) as (P & S & _).
  assert (R1 : ready uc lc o1) by (unfold ready; rewrite P, S; split; assumption).
  assert (RL : forall name t, ready uc lc (push AClear (with_program (load name t (o_program o1)) o1))).
  { intros name t. split; [cbn [push with_program o_storage]; rewrite S; exact R|]. apply lines_ready. }
  split; [|split; [|split]].
  - unfold new_command. rewrite C. destruct go as [[|]|e]; do 2 eexists; (split; [reflexivity|]); auto.
  - intros p. unfold load_command. rewrite C. destruct go as [[|]|e]; [|do 2 eexists; (split; [reflexivity|]); auto|do 2 eexists; (split; [reflexivity|]); auto].
    rewrite S. destruct (make_canonical_with_extension _ _ _ _) as [full|e] eqn:M; [|eauto].
    destruct (full_name_names uc lc _ _ _ U R M) as (k & f & NF & _).
    rewrite (get_file uc _ _ _ _ (reachable_ok uc lc _ R) NF). destruct (match drive_at _ _ with Some d => _ | None => _ end) as [b|e]; [|eauto].
    destruct (from_utf8 b); eauto.
  - intros n. unfold save_command. assert (RO : ready uc lc o) by (split; assumption).
    destruct (match n with Some name => Some name | None => e_name (o_program o) end) as [name|]; [|eauto].
    destruct (make_canonical_with_extension _ _ _ _) as [full|e] eqn:M; [|eauto].
    destruct (put uc full _ (o_storage o)) as [[st|e]|] eqn:PE; [|eauto|].
    + do 2 eexists. split; [reflexivity|]. split; [exact (R_op uc lc (o_storage o) (OPut full _) st R Logic.I PE)|exact L].
    + exfalso. exact (C34_no_panic uc lc (o_storage o) (OPut full _) R PE).
  - intros w h keys W H. unfold edit_command, edit_program.
    destruct (C41_never_panics w h true (keys ++ [KEscape]) (o_program o) W H L) as (r & ops & E & B & _). rewrite E.
    destruct r as [e|e rest]; do 2 eexists; (split; [reflexivity|]); (split; [exact R|]); left; exact B.
Qed.
End Histories.

Definition save_load uc lc n o o1 U := save_load_ uc lc U n o o1.
Definition each_command uc lc c o r o' U := each_command_ uc lc U c o r o'.
Definition session uc lc machine n o o' s M := session_ uc lc machine M n o o' s.
Definition leaving uc machine n o o' s := leaving_ uc machine n o o' s.
Definition never_panics uc lc o U := never_panics_ uc lc U o.
Lemma never_lost uc lc cs o o' : upper_ok uc -> reachable uc lc (o_storage o) ->
  steps uc lc cs o o' -> e_dirty (o_program o) = true -> no_consent uc o o' ->
  (edited (o_program o) (o_program o') /\ e_dirty (o_program o') = true) \/
  (exists cs1 n cs2 o1 o2, cs = cs1 ++ CSave n :: cs2 /\ steps uc lc cs1 o o1 /\ step uc lc (CSave n) o1 (Ok tt) o2 /\
     steps uc lc cs2 o2 o' /\ edited (o_program o) (o_program o1) /\ saved uc (o_program o1) (o_storage o2)).
Proof. intros U R H. exact (never_lost_ uc lc U cs o o' H R). Qed.
