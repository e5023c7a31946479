(** Proofs about the text in the editor. *)
From Coq Require Import String.
From Verif Require Import Base Strings_Model Readline_Model Gfx_Model Gfx_Spec Editor_Model Editor_Spec.
Local Open Scope string_scope.
Local Open Scope nat_scope.
Local Open Scope list_scope.

(** ** Lines and texts *)

Definition flat (l : ustr) : Prop := ~ In 10%N l.
Definition enders (A : list ustr) : ustr := concat (map (fun l => l ++ [10%N]) A).
Definition tails (B : list ustr) : ustr := concat (map (cons 10%N) B).

Lemma text_enders e : text e = enders (e_content e).
Proof.
  unfold text. assert (H : forall l acc, fold_left (fun contents line => contents ++ line ++ [10%N]) l acc = acc ++ enders l).
  { induction l as [|a l IH]; intros acc; cbn [fold_left]; [symmetry; apply app_nil_r|].
    rewrite IH. unfold enders. cbn [map concat]. rewrite !app_assoc. reflexivity. }
  exact (H _ []).
Qed.

Lemma enders_app A B : enders (A ++ B) = enders A ++ enders B.
Proof. unfold enders. rewrite map_app. apply concat_app. Qed.
Lemma enders_cons l B : enders (l :: B) = l ++ 10%N :: enders B.
Proof. unfold enders. cbn [map concat]. rewrite <- app_assoc. reflexivity. Qed.

Lemma enders_tails l B : enders (l :: B) = l ++ tails B ++ [10%N].
Proof.
  revert l. induction B as [|b B IH]; intros l; [rewrite enders_cons; reflexivity|].
  rewrite enders_cons, IH. cbn [tails map concat]. unfold tails. cbn [map concat]. rewrite <- !app_assoc. reflexivity.
Qed.

Lemma first_line_flat t : flat (first_line t).
Proof.
  induction t as [|c t IH]; [exact (fun x => x)|]. cbn [first_line].
  destruct (N.eqb_spec c 10); [exact (fun x => x)|]. intros [H|H]; [congruence|exact (IH H)].
Qed.

Lemma first_line_app l t : flat l -> first_line (l ++ t) = l ++ first_line t.
Proof.
  induction l as [|c l IH]; intros F; [reflexivity|]. cbn [app first_line].
  destruct (N.eqb_spec c 10) as [->|Q]; [destruct F; left; reflexivity|].
  rewrite IH; [reflexivity|]. intros H. apply F. right. exact H.
Qed.
Lemma first_line_self l : flat l -> first_line l = l.
Proof. intros F. rewrite <- (app_nil_r l) at 1. rewrite first_line_app by exact F. apply app_nil_r. Qed.
Lemma first_line_tails B : first_line (tails B) = [].
Proof. destruct B; reflexivity. Qed.

Lemma flat_app a b : flat (a ++ b) <-> flat a /\ flat b.
Proof. unfold flat. rewrite in_app_iff. tauto. Qed.
Lemma flat_rev a : flat (rev a) <-> flat a.
Proof. unfold flat. rewrite <- in_rev. tauto. Qed.

Lemma last_line_enders A p : flat p -> last_line (enders A ++ p) = p.
Proof.
  intros F. unfold last_line. rewrite rev_app_distr, first_line_app by (apply flat_rev; exact F).
  replace (first_line (rev (enders A))) with (@nil N); [rewrite app_nil_r; apply rev_involutive|].
  destruct A as [|a A] using rev_ind; [reflexivity|]. rewrite enders_app, enders_cons. cbn [enders map concat].
  rewrite !rev_app_distr. reflexivity.
Qed.

Lemma newlines_app a b : newlines (a ++ b) = newlines a + newlines b.
Proof. apply count_occ_app. Qed.
Lemma newlines_flat l : flat l -> newlines l = 0.
Proof. apply count_occ_not_In. Qed.
Lemma newlines_cons t : newlines (10%N :: t) = S (newlines t).
Proof. unfold newlines. apply count_occ_cons_eq. reflexivity. Qed.

Definition all_flat (A : list ustr) : Prop := forall l, In l A -> flat l.
Lemma all_flat_app A B : all_flat (A ++ B) <-> all_flat A /\ all_flat B.
Proof.
  unfold all_flat. split.
  - intros H. split; intros l L; apply H, in_app_iff; tauto.
  - intros [H1 H2] l L. apply in_app_iff in L. destruct L; auto.
Qed.
Lemma all_flat_cons l B : all_flat (l :: B) <-> flat l /\ all_flat B.
Proof.
  unfold all_flat. split.
  - intros H. split; [apply H; left; reflexivity|intros x X; apply H; right; exact X].
  - intros [H1 H2] x [<-|X]; auto.
Qed.

Lemma newlines_enders A : all_flat A -> newlines (enders A) = length A.
Proof.
  induction A as [|a A IH]; intros F; [reflexivity|]. apply all_flat_cons in F. destruct F as [F1 F2].
  rewrite enders_cons, newlines_app, newlines_cons, IH, newlines_flat by assumption. reflexivity.
Qed.
Lemma newlines_tails B : all_flat B -> newlines (tails B) = length B.
Proof.
  induction B as [|b B IH]; intros F; [reflexivity|]. apply all_flat_cons in F. destruct F as [F1 F2].
  unfold tails. cbn [map concat]. change ((10%N :: b) ++ concat (map (cons 10%N) B)) with (10%N :: b ++ tails B).
  rewrite newlines_cons, newlines_app, newlines_flat, IH by assumption. reflexivity.
Qed.

Lemma enders_inj A B : all_flat A -> all_flat B -> enders A = enders B -> A = B.
Proof.
  revert B. induction A as [|a A IH]; intros [|b B] FA FB E.
  - reflexivity.
  - rewrite enders_cons in E. destruct b; discriminate E.
  - rewrite enders_cons in E. destruct a; discriminate E.
  - apply all_flat_cons in FA, FB. destruct FA as [F1 FA], FB as [F2 FB]. rewrite !enders_cons in E.
    assert (a = b /\ enders A = enders B) as [-> E2].
    { clear - E F1 F2. revert b F2 E. induction a as [|c a IH]; intros [|d b] F2 E; cbn [app] in E.
      - split; congruence.
      - exfalso. apply F2. left. congruence.
      - exfalso. apply F1. left. congruence.
      - destruct (IH (fun H => F1 (or_intror H)) b (fun H => F2 (or_intror H))) as [-> E2]; [congruence|].
        split; congruence. }
    f_equal. apply IH; assumption.
Qed.

(** Every text is a sequence of lines and the start of another one, and the end of a line and more
    lines. *)
Lemma before_split t : exists A p, t = enders A ++ p /\ all_flat A /\ flat p.
Proof.
  induction t as [|c t IH] using rev_ind.
  - exists [], []. split; [reflexivity|]. split; intros; [intros l []|intros []].
  - destruct IH as (A & p & -> & FA & Fp). destruct (N.eq_dec c 10) as [->|Q].
    + exists (A ++ [p]), []. rewrite enders_app, enders_cons. cbn [enders map concat].
      split; [rewrite !app_nil_r, <- app_assoc; reflexivity|]. split; [|intros []].
      apply all_flat_app. split; [exact FA|]. intros l [<-|[]]. exact Fp.
    + exists A, (p ++ [c]). split; [symmetry; apply app_assoc|]. split; [exact FA|].
      apply flat_app. split; [exact Fp|]. intros [H|[]]. congruence.
Qed.
Lemma after_split t : exists s B, t = s ++ tails B /\ flat s /\ all_flat B.
Proof.
  induction t as [|c t IH].
  - exists [], []. split; [reflexivity|]. split; intros; [intros []|intros l []].
  - destruct IH as (s & B & -> & Fs & FB). destruct (N.eq_dec c 10) as [->|Q].
    + exists [], (s :: B). split; [reflexivity|]. split; [intros []|]. apply all_flat_cons. split; assumption.
    + exists (c :: s), B. split; [reflexivity|]. split; [|exact FB]. intros [H|H]; [congruence|exact (Fs H)].
Qed.

(** ** The editor with the cursor between two parts of a line *)

Record zip (e : editor) (b : writing) (A : list ustr) (p s : ustr) (B : list ustr) : Prop := mkZip {
  z_content : e_content e = A ++ (p ++ s) :: B;
  z_line : e_line e = length A;
  z_col : e_col e = length p;
  z_aim : e_insert_col e = aim b;
  z_before : before b = enders A ++ p;
  z_after : after b = s ++ tails B;
  z_A : all_flat A;
  z_p : flat p;
  z_s : flat s;
  z_B : all_flat B
}.

Lemma holds_zip e b : holds e b -> exists A p s B, zip e b A p s B.
Proof.
  intros [T L R C M]. destruct (before_split (before b)) as (A & p & Eb & FA & Fp).
  destruct (after_split (after b)) as (s & B & Ea & Fs & FB). exists A, p, s, B.
  constructor; try assumption.
  - apply enders_inj; [exact L| |].
    + apply all_flat_app. split; [exact FA|]. apply all_flat_cons. split; [apply flat_app; split; assumption|exact FB].
    + rewrite <- text_enders, T. unfold whole. rewrite Eb, Ea, enders_app, enders_tails, <- !app_assoc. reflexivity.
  - rewrite R. unfold row. rewrite Eb, newlines_app, newlines_enders, newlines_flat by assumption. lia.
  - rewrite C. unfold column. rewrite Eb, last_line_enders by assumption. reflexivity.
Qed.

Lemma zip_holds e b A p s B : zip e b A p s B -> holds e b.
Proof.
  intros Z. destruct Z as [Ec El Eco Ea Eb Eaf FA Fp Fs FB]. constructor.
  - rewrite text_enders, Ec, enders_app, enders_tails. unfold whole. rewrite Eb, Eaf, <- !app_assoc. reflexivity.
  - rewrite Ec. intros l Hl. assert (F : all_flat (A ++ (p ++ s) :: B)); [|exact (F l Hl)].
    apply all_flat_app. split; [exact FA|]. apply all_flat_cons. split; [apply flat_app; split; assumption|exact FB].
  - rewrite El. unfold row. rewrite Eb, newlines_app, newlines_enders, newlines_flat by assumption. lia.
  - rewrite Eco. unfold column. rewrite Eb, last_line_enders by assumption. reflexivity.
  - exact Ea.
Qed.

Ltac zz :=
  match goal with Z : zip _ _ _ _ _ _ |- _ =>
    first [exact (z_A _ _ _ _ _ _ Z)|exact (z_p _ _ _ _ _ _ Z)|exact (z_s _ _ _ _ _ _ Z)|exact (z_B _ _ _ _ _ _ Z)
          |exact (z_content _ _ _ _ _ _ Z)|exact (z_line _ _ _ _ _ _ Z)|exact (z_col _ _ _ _ _ _ Z)
          |exact (z_aim _ _ _ _ _ _ Z)|exact (z_before _ _ _ _ _ _ Z)|exact (z_after _ _ _ _ _ _ Z)] end.

Section Zip.
Variables (e : editor) (b : writing) (A : list ustr) (p s : ustr) (B : list ustr).
Hypothesis Z : zip e b A p s B.

Lemma zip_line_at : line_at e (e_line e) = Some (p ++ s).
Proof.
  unfold line_at. rewrite (z_content _ _ _ _ _ _ Z), (z_line _ _ _ _ _ _ Z), nth_error_app2 by lia.
  rewrite Nat.sub_diag. reflexivity.
Qed.
Lemma zip_last : last_line (before b) = p.
Proof. rewrite (z_before _ _ _ _ _ _ Z). apply last_line_enders, (z_p _ _ _ _ _ _ Z). Qed.
Lemma zip_first : first_line (after b) = s.
Proof.
  rewrite (z_after _ _ _ _ _ _ Z), first_line_app, first_line_tails by apply (z_s _ _ _ _ _ _ Z). apply app_nil_r.
Qed.
Lemma zip_column : column b = length p.
Proof. unfold column. rewrite zip_last. reflexivity. Qed.
Lemma zip_this : this_line b = p ++ s.
Proof. unfold this_line. rewrite zip_last, zip_first. reflexivity. Qed.
Lemma zip_row : row b = length A.
Proof. rewrite <- (h_row e b); [apply (z_line _ _ _ _ _ _ Z)|exact (zip_holds _ _ _ _ _ _ Z)]. Qed.
Lemma zip_whole : whole b = enders A ++ (p ++ s) ++ tails B.
Proof. unfold whole. rewrite (z_before _ _ _ _ _ _ Z), (z_after _ _ _ _ _ _ Z), <- !app_assoc. reflexivity. Qed.
Lemma zip_newlines : newlines (whole b) = length A + length B.
Proof.
  rewrite zip_whole, !newlines_app, newlines_enders, newlines_tails by zz.
  rewrite (newlines_flat p), (newlines_flat s) by zz. lia.
Qed.
Lemma zip_length : length (e_content e) = S (length A + length B).
Proof. rewrite (z_content _ _ _ _ _ _ Z), app_length. cbn [length]. lia. Qed.
Lemma zip_upd l : upd (e_content e) (e_line e) l = A ++ l :: B.
Proof.
  rewrite (z_content _ _ _ _ _ _ Z), (z_line _ _ _ _ _ _ Z). clear. induction A as [|a A' IH]; [reflexivity|].
  cbn [app length]. cbn [upd]. rewrite IH. reflexivity.
Qed.
End Zip.

Lemma firstn_len {T} (a b : list T) k : firstn (length a + k) (a ++ b) = a ++ firstn k b.
Proof. rewrite firstn_app_2. reflexivity. Qed.
Lemma skipn_len {T} (a b : list T) k : skipn (length a + k) (a ++ b) = skipn k b.
Proof. rewrite skipn_app. rewrite skipn_all2 by lia. replace (length a + k - length a) with k by lia. reflexivity. Qed.

Lemma flat_firstn k l : flat l -> flat (firstn k l).
Proof. intros F H. apply F. rewrite <- (firstn_skipn k l). apply in_app_iff. left. exact H. Qed.
Lemma flat_skipn k l : flat l -> flat (skipn k l).
Proof. intros F H. apply F. rewrite <- (firstn_skipn k l). apply in_app_iff. right. exact H. Qed.

Lemma zip_place e b A L B c m :
  e_content e = A ++ L :: B -> whole b = enders A ++ L ++ tails B -> all_flat A -> flat L -> all_flat B -> c <= length L ->
  zip (with_pos e (length A) c m) (cursor_at (length (enders A) + c) m b) A (firstn c L) (skipn c L) B.
Proof.
  intros Ec W FA FL FB C. constructor; cbn [with_pos e_content e_line e_col e_insert_col cursor_at before after aim]; try reflexivity.
  - rewrite firstn_skipn. exact Ec.
  - rewrite firstn_length. lia.
  - rewrite W, firstn_len, firstn_app. replace (c - length L) with 0 by lia. rewrite firstn_O, app_nil_r. reflexivity.
  - rewrite W, skipn_len, skipn_app. replace (c - length L) with 0 by lia. rewrite skipn_O. reflexivity.
  - exact FA.
  - apply flat_firstn, FL.
  - apply flat_skipn, FL.
  - exact FB.
Qed.

Lemma line_start_enders A t : all_flat A -> line_start (length A) (enders A ++ t) = length (enders A).
Proof.
  induction A as [|a A IH]; intros F; [destruct t; reflexivity|]. apply all_flat_cons in F. destruct F as [Fa FA].
  rewrite enders_cons, <- app_assoc, app_length. cbn [length app]. revert Fa.
  induction a as [|c a IHa]; intros Fa.
  - cbn [app line_start length]. rewrite N.eqb_refl, IH by exact FA. lia.
  - cbn [app line_start length]. destruct (N.eqb_spec c 10) as [->|Q]; [destruct Fa; left; reflexivity|].
    rewrite IHa by (intros H; apply Fa; right; exact H). lia.
Qed.

Section Moves.
Variables (e : editor) (b : writing) (A : list ustr) (p s : ustr) (B : list ustr).
Hypothesis Z : zip e b A p s B.
Let F : flat (p ++ s).
Proof. apply flat_app. split; zz. Qed.

Lemma in_column_zip c : c <= length (p ++ s) ->
  zip (with_pos e (e_line e) c c) (in_column c b) A (firstn c (p ++ s)) (skipn c (p ++ s)) B.
Proof.
  intros C. unfold in_column. rewrite (zip_column _ _ _ _ _ _ Z), (z_before _ _ _ _ _ _ Z), app_length.
  replace (length (enders A) + length p - length p + c) with (length (enders A) + c) by lia.
  rewrite (z_line _ _ _ _ _ _ Z). apply zip_place; try zz; [apply (zip_whole _ _ _ _ _ _ Z)|exact F|exact C].
Qed.

Lemma in_line_zip l : l <= length A + length B ->
  exists e' A' p' s' B', to_insert_col l e = Some e' /\ zip e' (in_line l b) A' p' s' B' /\ e_content e' = e_content e /\
    e_dirty e' = e_dirty e /\ e_name e' = e_name e /\ e_vline e' = e_vline e /\ e_vcol e' = e_vcol e.
Proof.
  intros Hl. set (C := e_content e).
  assert (FC : all_flat C).
  { unfold C. rewrite (z_content _ _ _ _ _ _ Z). apply all_flat_app. split; [zz|]. apply all_flat_cons. split; [exact F|zz]. }
  destruct (nth_error C l) as [L|] eqn:E.
  2: { apply nth_error_None in E. unfold C in E. rewrite (zip_length _ _ _ _ _ _ Z) in E. lia. }
  destruct (nth_error_split _ _ E) as (A' & B' & EC & <-).
  rewrite EC in FC. apply all_flat_app in FC. destruct FC as [FA FC]. apply all_flat_cons in FC. destruct FC as [FL FB].
  assert (W : whole b = enders A' ++ L ++ tails B').
  { apply (app_inv_tail [10%N]). rewrite <- !app_assoc, <- enders_tails, <- enders_app, <- EC. unfold C.
    rewrite <- text_enders. symmetry. apply (h_text e b). exact (zip_holds _ _ _ _ _ _ Z). }
  unfold to_insert_col, line_at. fold C. rewrite E. do 5 eexists. split; [reflexivity|]. split; [|tauto].
  unfold in_line. rewrite W, line_start_enders by exact FA.
  replace (skipn (length (enders A')) (enders A' ++ L ++ tails B')) with (L ++ tails B').
  2: { rewrite skipn_app, skipn_all, Nat.sub_diag. reflexivity. }
  rewrite first_line_app, first_line_tails, app_nil_r by exact FL. rewrite (z_aim _ _ _ _ _ _ Z).
  eapply zip_place with (L := L) (B := B'); try assumption. apply Nat.le_min_r.
Qed.
End Moves.

(** ** The keys *)

(** What a key leaves, besides the text. *)
Definition kept (b b' : writing) (e e' : editor) : Prop :=
  e_name e' = e_name e /\ e_vline e' = e_vline e /\ e_vcol e' = e_vcol e /\
  e_dirty e' = e_dirty e || negb (ustr_eqb (whole b) (whole b')).

Lemma kept_same b b' e e' : whole b' = whole b -> e_name e' = e_name e -> e_vline e' = e_vline e -> e_vcol e' = e_vcol e ->
  e_dirty e' = e_dirty e -> kept b b' e e'.
Proof.
  intros W H1 H2 H3 H4. split; [exact H1|]. split; [exact H2|]. split; [exact H3|]. rewrite W, ustr_eqb_refl, H4.
  symmetry. apply orb_false_r.
Qed.
Lemma kept_changed b b' e e' : length (whole b) <> length (whole b') -> e_name e' = e_name e -> e_vline e' = e_vline e ->
  e_vcol e' = e_vcol e -> e_dirty e' = true -> kept b b' e e'.
Proof.
  intros W H1 H2 H3 H4. split; [exact H1|]. split; [exact H2|]. split; [exact H3|]. rewrite H4.
  destruct (ustr_eqb (whole b) (whole b')) eqn:E; [|symmetry; apply orb_true_r].
  apply ustr_eqb_eq in E. rewrite E in W. congruence.
Qed.

Lemma cursor_at_whole k m b : whole (cursor_at k m b) = whole b.
Proof. apply firstn_skipn. Qed.

Lemma writing_eta b : b = mkWriting (before b) (after b) (aim b).
Proof. destruct b. reflexivity. Qed.

(** A key that does this. *)
Definition does (h : nat) (k : key) (e : editor) (b : writing) (d : done) : Prop :=
  exists e' r ops, d = Some (e', r, ops) /\ holds e' (type_key h k b) /\ kept b (type_key h k b) e e'.

Section Keys.
Variables (w h x : nat) (e : editor) (b : writing) (A : list ustr) (p s : ustr) (B : list ustr).
Hypothesis W : 1 <= w.
Hypothesis H : 2 <= h.
Hypothesis Z : zip e b A p s B.

Lemma moving_column k c : c <= length (p ++ s) -> type_key h k b = in_column c b ->
  does h k e b (Some (with_pos e (e_line e) c c, RNone, [])).
Proof.
  intros C E. do 3 eexists. split; [reflexivity|]. rewrite E. split; [exact (zip_holds _ _ _ _ _ _ (in_column_zip _ _ _ _ _ _ Z c C))|].
  apply kept_same; try reflexivity. apply cursor_at_whole.
Qed.
Lemma moving_line k l : l <= length A + length B -> type_key h k b = in_line l b ->
  does h k e b (quietly (to_insert_col l e)).
Proof.
  intros C E. destruct (in_line_zip _ _ _ _ _ _ Z l C) as (e' & A' & p' & s' & B' & E1 & Z' & E2 & E3 & E4 & E5 & E6).
  rewrite E1. do 3 eexists. split; [reflexivity|]. rewrite E. split; [exact (zip_holds _ _ _ _ _ _ Z')|].
  apply kept_same; try assumption. apply cursor_at_whole.
Qed.
Lemma staying k : type_key h k b = b -> does h k e b (Some (e, RNone, [])).
Proof.
  intros E. do 3 eexists. split; [reflexivity|]. rewrite E. split; [exact (zip_holds _ _ _ _ _ _ Z)|].
  apply kept_same; reflexivity.
Qed.

Lemma up_does n k : type_key h k b = in_line (row b - n) b -> does h k e b (quietly (move_up n e)).
Proof.
  intros E. unfold move_up. rewrite (zip_row _ _ _ _ _ _ Z) in E. rewrite (z_line _ _ _ _ _ _ Z).
  destruct (Nat.ltb_spec n (length A)).
  - apply moving_line; [lia|exact E].
  - apply moving_line; [lia|]. rewrite E. f_equal. lia.
Qed.
Lemma down_does n k : type_key h k b = in_line (Nat.min (row b + n) (newlines (whole b))) b -> does h k e b (quietly (move_down n e)).
Proof.
  intros E. unfold move_down. rewrite (zip_row _ _ _ _ _ _ Z), (zip_newlines _ _ _ _ _ _ Z) in E.
  rewrite (z_line _ _ _ _ _ _ Z), (zip_length _ _ _ _ _ _ Z). destruct (Nat.ltb_spec (length A + n) (S (length A + length B))).
  - apply moving_line; [lia|]. rewrite E. f_equal. lia.
  - unfold minus. destruct (Nat.ltb_spec (S (length A + length B)) 1); [lia|].
    apply moving_line; [lia|]. rewrite E. f_equal. lia.
Qed.

Lemma left_does : does h KArrowLeft e b (press w h x KArrowLeft e).
Proof.
  cbn [press]. rewrite (z_col _ _ _ _ _ _ Z). destruct (Nat.ltb_spec 0 (length p)).
  - apply moving_column; [rewrite app_length; lia|]. cbn [type_key]. rewrite (zip_column _ _ _ _ _ _ Z).
    destruct (Nat.eqb_spec (length p) 0); [lia|reflexivity].
  - apply staying. cbn [type_key]. rewrite (zip_column _ _ _ _ _ _ Z). destruct (Nat.eqb_spec (length p) 0); [reflexivity|lia].
Qed.
Lemma right_does : does h KArrowRight e b (press w h x KArrowRight e).
Proof.
  cbn [press]. rewrite (zip_line_at _ _ _ _ _ _ Z), (z_col _ _ _ _ _ _ Z), app_length.
  destruct (Nat.ltb_spec (length p) (length p + length s)).
  - apply moving_column; [rewrite app_length; lia|]. cbn [type_key]. rewrite (zip_column _ _ _ _ _ _ Z), (zip_first _ _ _ _ _ _ Z).
    destruct s; [cbn [length] in *; lia|reflexivity].
  - apply staying. cbn [type_key]. rewrite (zip_first _ _ _ _ _ _ Z). destruct s; [reflexivity|cbn [length] in *; lia].
Qed.
Lemma end_does : does h KEnd e b (press w h x KEnd e).
Proof.
  cbn [press]. rewrite (zip_line_at _ _ _ _ _ _ Z). apply moving_column; [lia|]. cbn [type_key].
  rewrite (zip_this _ _ _ _ _ _ Z). reflexivity.
Qed.

Lemma indent_end l : find_indent_end l = length (leading is_space l).
Proof.
  induction l as [|c l IH]; [reflexivity|]. cbn [find_indent_end leading]. unfold is_space at 1.
  destruct (c =? 32)%N; [cbn [length]; rewrite IH|]; reflexivity.
Qed.
Lemma leading_length q l : length (leading q l) <= length l.
Proof. induction l as [|c l IH]; [reflexivity|]. cbn [leading]. destruct (q c); cbn [length]; lia. Qed.
Lemma home_does : does h KHome e b (press w h x KHome e).
Proof.
  cbn [press]. unfold home_key. rewrite (zip_line_at _ _ _ _ _ _ Z), (z_col _ _ _ _ _ _ Z), indent_end.
  apply moving_column.
  - pose proof (leading_length is_space (p ++ s)). destruct (_ =? _); lia.
  - cbn [type_key]. rewrite (zip_this _ _ _ _ _ _ Z), (zip_column _ _ _ _ _ _ Z). reflexivity.
Qed.

(** The line becomes another one. *)
Lemma changing k p' s' r ops :
  flat p' -> flat s' -> length (p' ++ s') <> length (p ++ s) ->
  type_key h k b = mkWriting (enders A ++ p') (s' ++ tails B) (length p') ->
  does h k e b (Some (with_pos (set_line e (p' ++ s')) (e_line e) (length p') (length p'), r, ops)).
Proof.
  intros Fp Fs L E. do 3 eexists. split; [reflexivity|]. rewrite E. split.
  - eapply zip_holds with (A := A) (p := p') (s := s') (B := B).
    constructor; cbn [with_pos set_line with_text e_content e_line e_col e_insert_col before after aim]; try zz; try reflexivity; try assumption.
    apply (zip_upd _ _ _ _ _ _ Z).
  - apply kept_changed; try reflexivity. rewrite (zip_whole _ _ _ _ _ _ Z). unfold whole. cbn [before after].
    rewrite !app_length in *. lia.
Qed.

Lemma firstn_p : firstn (length p) (p ++ s) = p.
Proof. rewrite <- (Nat.add_0_r (length p)), firstn_len, firstn_O. apply app_nil_r. Qed.
Lemma skipn_p : skipn (length p) (p ++ s) = s.
Proof. rewrite <- (Nat.add_0_r (length p)), skipn_len. apply skipn_O. Qed.

Lemma here_line A' p' t : flat p' -> here (enders A' ++ p') t = mkWriting (enders A' ++ p') t (length p').
Proof. intros F. unfold here. rewrite last_line_enders by exact F. reflexivity. Qed.

Lemma char_does c : c <> 10%N -> does h (KChar c) e b (press w h x (KChar c) e).
Proof.
  intros C. cbn [press]. unfold char_key. rewrite (zip_line_at _ _ _ _ _ _ Z), (z_col _ _ _ _ _ _ Z).
  unfold minus. destruct (Nat.ltb_spec w 1); [lia|]. rewrite firstn_p, skipn_p.
  cbn [e_line set_line with_text e_col].
  assert (Fc : flat (p ++ [c])) by (apply flat_app; split; [zz|intros [Q|[]]; congruence]).
  assert (E : p ++ c :: s = (p ++ [c]) ++ s) by (rewrite <- app_assoc; reflexivity). rewrite E.
  assert (E2 : e_col e + 1 = length (p ++ [c])) by (rewrite (z_col _ _ _ _ _ _ Z), app_length; reflexivity).
  rewrite E2. apply changing; [exact Fc|zz| |].
  - rewrite !app_length. cbn [length]. lia.
  - cbn [type_key]. rewrite (z_before _ _ _ _ _ _ Z), (z_after _ _ _ _ _ _ Z), <- app_assoc. apply here_line, Fc.
Qed.

Lemma spaces_flat n : flat (repeat 32%N n).
Proof. intros Q. apply repeat_spec in Q. discriminate. Qed.
Lemma tab_does : does h KTab e b (press w h x KTab e).
Proof.
  cbn [press]. unfold tab_key. rewrite (zip_line_at _ _ _ _ _ _ Z), (z_col _ _ _ _ _ _ Z). rewrite firstn_p, skipn_p.
  set (n := (length p + indent_width) / indent_width * indent_width).
  assert (Hn : n - length p = 4 - length p mod 4 /\ length p < n).
  { unfold n, indent_width. pose proof (Nat.div_mod (length p) 4). pose proof (Nat.mod_upper_bound (length p) 4).
    replace (length p + 4) with (length p + 1 * 4) by lia. rewrite Nat.div_add by lia. lia. }
  destruct Hn as [Hn Hl]. set (sp := repeat 32%N (n - length p)).
  assert (Fc : flat (p ++ sp)) by (apply flat_app; split; [zz|apply spaces_flat]).
  rewrite app_assoc. cbn [e_line set_line with_text].
  assert (E2 : n = length (p ++ sp)) by (rewrite app_length; unfold sp; rewrite repeat_length; lia).
  rewrite E2. apply changing; [exact Fc|zz| |].
  - rewrite app_length, <- E2, app_length. lia.
  - cbn [type_key]. rewrite (zip_column _ _ _ _ _ _ Z), (z_before _ _ _ _ _ _ Z), (z_after _ _ _ _ _ _ Z), <- Hn, <- app_assoc. apply here_line, Fc.
Qed.

Lemma remove_before_spec q n : n <= length q -> remove_before n (length q) (q ++ s) = firstn (length q - n) q ++ s.
Proof.
  revert q. induction n as [|n IH]; intros q L; cbn [remove_before].
  - rewrite Nat.sub_0_r, firstn_all. reflexivity.
  - destruct q as [|c q _] using rev_ind; [cbn in L; lia|]. rewrite app_length in *. cbn [length] in *.
    replace (length q + 1 - 1) with (length q) by lia. unfold remove_at.
    replace (firstn (length q) ((q ++ [c]) ++ s)) with q.
    2: { rewrite <- app_assoc, <- (Nat.add_0_r (length q)), firstn_len, firstn_O, app_nil_r. reflexivity. }
    replace (skipn (S (length q)) ((q ++ [c]) ++ s)) with s.
    2: { replace (S (length q)) with (length (q ++ [c]) + 0) by (rewrite app_length; cbn [length]; lia). rewrite skipn_len, skipn_O. reflexivity. }
    rewrite IH by lia. replace (length q + 1 - S n) with (length q - n) by lia.
    rewrite firstn_app. replace (length q - n - length q) with 0 by lia. rewrite firstn_O, app_nil_r. reflexivity.
Qed.

Lemma drop_line A' q n : n <= length q -> drop_last n (enders A' ++ q) = enders A' ++ firstn (length q - n) q.
Proof.
  intros L. unfold drop_last. rewrite app_length. replace (length (enders A') + length q - n) with (length (enders A') + (length q - n)) by lia.
  apply firstn_len.
Qed.

Lemma leading_all q t : (length q <=? length (leading is_space (q ++ t))) = forallb is_space q.
Proof.
  induction q as [|c q IH]; [reflexivity|]. cbn [app leading forallb]. destruct (is_space c); [|reflexivity]. exact IH.
Qed.

Lemma backspace_line : length p <> 0 -> does h KBackspace e b (backspace e).
Proof.
  intros Hp. unfold backspace. rewrite (zip_line_at _ _ _ _ _ _ Z), (z_col _ _ _ _ _ _ Z).
  destruct (Nat.ltb_spec 0 (length p)) as [_|]; [|lia]. rewrite indent_end.
  rewrite (leading_all p s).
  set (n := if forallb is_space p then length p - indentation_back (length p) else 1).
  assert (Hn : n = (if forallb is_space p then S ((length p - 1) mod 4) else 1) /\ 1 <= n <= length p).
  { unfold n, indentation_back, indent_width. pose proof (Nat.div_mod (length p - 1) 4). pose proof (Nat.mod_upper_bound (length p - 1) 4).
    destruct (forallb is_space p); [|lia]. destruct (Nat.leb_spec 4 (length p)); [lia|].
    rewrite (Nat.mod_small (length p - 1) 4) by lia. lia. }
  destruct Hn as [Hn Hb]. destruct (Nat.ltb_spec 0 n); [|lia]. rewrite remove_before_spec by lia.
  set (q := firstn (length p - n) p). assert (Lq : length p - n = length q) by (unfold q; rewrite firstn_length; lia).
  rewrite Lq. eapply (changing KBackspace q s); [apply flat_firstn; zz|zz| |].
  - rewrite !app_length. lia.
  - cbn [type_key]. rewrite (zip_column _ _ _ _ _ _ Z), (zip_last _ _ _ _ _ _ Z). destruct (Nat.ltb_spec 0 (length p)); [|lia].
    rewrite andb_true_l, <- Hn, (z_before _ _ _ _ _ _ Z), (z_after _ _ _ _ _ _ Z), drop_line by lia.
    apply here_line. apply flat_firstn. zz.
Qed.

Lemma nth_mid {T} (l : list T) y r : nth_error (l ++ y :: r) (length l) = Some y.
Proof. rewrite nth_error_app2, Nat.sub_diag by lia. reflexivity. Qed.
Lemma upd_mid {T} (l : list T) y z r : upd (l ++ y :: r) (length l) z = l ++ z :: r.
Proof. induction l as [|c l IH]; [reflexivity|]. cbn [app length upd]. rewrite IH. reflexivity. Qed.

Lemma join_content e0 A' q t B' : e_content e0 = A' ++ q :: t :: B' ->
  join_next_line_into (length A') e0 = Some (with_text e0 (A' ++ (q ++ t) :: B') true).
Proof.
  intros E. unfold join_next_line_into, line_at. rewrite E, nth_mid.
  replace (nth_error (A' ++ q :: t :: B') (S (length A'))) with (Some t).
  2: { rewrite nth_error_app2 by lia. replace (S (length A') - length A') with 1 by lia. reflexivity. }
  replace (remove_at (S (length A')) (A' ++ q :: t :: B')) with (A' ++ q :: B').
  2: { unfold remove_at. replace (S (length A')) with (length A' + 1) by lia. rewrite firstn_len.
       replace (S (length A' + 1)) with (length A' + 2) by lia. rewrite skipn_len, <- app_assoc. reflexivity. }
  rewrite upd_mid. reflexivity.
Qed.

Lemma backspace_join : length p = 0 -> does h KBackspace e b (backspace e).
Proof.
  intros Hp. unfold backspace. rewrite (z_col _ _ _ _ _ _ Z), Hp. rewrite Nat.ltb_irrefl. destruct p as [|]; [|discriminate Hp].
  assert (Ek : type_key h KBackspace b = here (drop_last 1 (before b)) (after b)).
  { cbn [type_key]. rewrite (zip_column _ _ _ _ _ _ Z). reflexivity. }
  pose proof (z_before _ _ _ _ _ _ Z) as Eb. rewrite app_nil_r in Eb.
  destruct A as [|a A1 _] using rev_ind.
  - rewrite (z_line _ _ _ _ _ _ Z). cbn [length]. rewrite Nat.ltb_irrefl. do 3 eexists. split; [reflexivity|].
    assert (E : type_key h KBackspace b = mkWriting [] (after b) 0) by (rewrite Ek, Eb; reflexivity). rewrite E. split.
    + apply (zip_holds _ _ [] [] s B). constructor; cbn [with_pos e_content e_line e_col e_insert_col before after aim]; try zz; reflexivity.
    + apply kept_same; try reflexivity. unfold whole. cbn [before after]. rewrite Eb. reflexivity.
  - pose proof (z_content _ _ _ _ _ _ Z) as Ec. rewrite <- app_assoc in Ec. cbn [app] in Ec.
    assert (Hl : e_line e = S (length A1)) by (rewrite (z_line _ _ _ _ _ _ Z), app_length; cbn [length]; lia).
    rewrite Hl. cbn [Nat.ltb Nat.leb]. replace (S (length A1) - 1) with (length A1) by lia.
    unfold line_at. rewrite Ec, nth_mid. rewrite (join_content e A1 a s B Ec). cbn [e_line with_text]. rewrite Hl.
    replace (S (length A1) - 1) with (length A1) by lia. do 3 eexists. split; [reflexivity|].
    pose proof (z_A _ _ _ _ _ _ Z) as FA. apply all_flat_app in FA. destruct FA as [FA Fa]. apply all_flat_cons in Fa. destruct Fa as [Fa _].
    assert (E : type_key h KBackspace b = mkWriting (enders A1 ++ a) (after b) (length a)).
    { rewrite Ek, Eb, enders_app, enders_cons. cbn [enders map concat]. rewrite <- here_line by exact Fa. f_equal.
      unfold drop_last. rewrite !app_length. cbn [length]. rewrite (app_assoc (enders A1)).
      replace (length (enders A1) + (length a + 1) - 1) with (length (enders A1 ++ a) + 0) by (rewrite app_length; lia).
      rewrite firstn_len, firstn_O, app_nil_r. reflexivity. }
    rewrite E. split.
    + apply (zip_holds _ _ A1 a s B). constructor; cbn [with_pos with_text e_content e_line e_col e_insert_col before after aim]; try zz; try reflexivity; assumption.
    + apply kept_changed; try reflexivity. unfold whole. cbn [before after]. rewrite Eb, enders_app, enders_cons.
      cbn [enders map concat]. rewrite !app_length. cbn [length]. lia.
Qed.

Lemma delete_does k : type_key h k b = mkWriting (before b) (tl (after b)) (aim b) -> does h k e b (delete_key e).
Proof.
  intros Ek. pose proof (staying k) as St. unfold delete_key. rewrite (zip_line_at _ _ _ _ _ _ Z), (z_col _ _ _ _ _ _ Z), app_length.
  pose proof (z_after _ _ _ _ _ _ Z) as Ea. destruct (Nat.ltb_spec (length p) (length p + length s)) as [L|L].
  - destruct s as [|c s1]; [cbn [length] in L; lia|].
    replace (remove_at (length p) (p ++ c :: s1)) with (p ++ s1).
    2: { unfold remove_at. replace (S (length p)) with (length p + 1) by lia. rewrite skipn_len.
         rewrite <- (Nat.add_0_r (length p)) at 1. rewrite firstn_len, firstn_O, app_nil_r. reflexivity. }
    assert (D : exists e' , e' = set_line e (p ++ s1) /\ holds e' (type_key h k b) /\ kept b (type_key h k b) e e').
    { eexists. split; [reflexivity|]. rewrite Ek, Ea. cbn [app tl]. split.
      - apply (zip_holds _ _ A p s1 B). constructor; cbn [set_line with_text e_content e_line e_col e_insert_col before after aim]; try zz; try reflexivity.
        + apply (zip_upd _ _ _ _ _ _ Z).
        + intros Q. apply (z_s _ _ _ _ _ _ Z). right. exact Q.
      - apply kept_changed; try reflexivity. unfold whole. cbn [before after]. rewrite Ea. cbn [app]. repeat (rewrite app_length; cbn [length]). lia. }
    destruct D as (e' & -> & D1 & D2). destruct (length p <? length (p ++ s1)); do 3 eexists; (split; [reflexivity|split; assumption]).
  - destruct s as [|]; [|cbn [length] in L; lia]. cbn [app] in Ea. rewrite (z_line _ _ _ _ _ _ Z), (zip_length _ _ _ _ _ _ Z).
    pose proof (z_content _ _ _ _ _ _ Z) as Ec. rewrite app_nil_r in Ec. destruct (Nat.ltb_spec (length A + 1) (S (length A + length B))) as [M|M].
    + destruct B as [|b1 B1]; [cbn [length] in M; lia|]. rewrite (join_content e A p b1 B1 Ec). do 3 eexists. split; [reflexivity|].
      pose proof (z_B _ _ _ _ _ _ Z) as FB. apply all_flat_cons in FB. destruct FB as [Fb FB].
      assert (Et : tl (after b) = b1 ++ tails B1) by (rewrite Ea; reflexivity). rewrite Ek, Et. split.
      * apply (zip_holds _ _ A p b1 B1). constructor; cbn [with_text e_content e_line e_col e_insert_col before after aim]; try zz; try reflexivity; assumption.
      * apply kept_changed; try reflexivity. unfold whole. cbn [before after]. rewrite Ea. unfold tails. cbn [map concat]. rewrite !app_length. cbn [length]. lia.
    + destruct B as [|]; [|cbn [length] in M; lia]. apply St. rewrite Ek, Ea. cbn [tails map concat tl]. etransitivity; [|symmetry; apply writing_eta]. rewrite Ea. reflexivity.
Qed.

Lemma copy_indent_spec l : copy_indent l = leading is_whitespace l.
Proof. induction l as [|c l IH]; [reflexivity|]. cbn [copy_indent leading]. rewrite IH. reflexivity. Qed.
Lemma leading_in q l c : In c (leading q l) -> In c l /\ q c = true.
Proof.
  induction l as [|d l IH]; [intros []|]. cbn [leading]. destruct (q d) eqn:Q; [|intros []].
  intros [<-|I]; [split; [left; reflexivity|exact Q]|]. destruct (IH I). split; [right|]; assumption.
Qed.
Lemma utf8_ascii l : (forall c, In c l -> (c < 128)%N) -> utf8_len l = length l.
Proof.
  intros L. unfold utf8_len. induction l as [|c l IH]; [reflexivity|]. cbn [map list_sum fold_right length] in *.
  rewrite <- IH by (intros d D; apply L; right; exact D). specialize (L c (or_introl eq_refl)).
  unfold utf8_len1. destruct (N.ltb_spec c 128); [reflexivity|lia].
Qed.

Lemma newline_does k : no_wide_spaces (whole b) ->
  type_key h k b = here (before b ++ 10%N :: leading is_whitespace (this_line b)) (after b) -> does h k e b (newline_key e).
Proof.
  intros NW Ek. unfold newline_key. rewrite (zip_line_at _ _ _ _ _ _ Z), (z_col _ _ _ _ _ _ Z), firstn_p, skipn_p, copy_indent_spec.
  rewrite (zip_this _ _ _ _ _ _ Z) in Ek. set (ind := leading is_whitespace (p ++ s)) in *.
  assert (Fi : flat ind).
  { intros Q. apply leading_in in Q. destruct Q as [Q _]. apply in_app_iff in Q. destruct Q as [Q|Q]; [apply (z_p _ _ _ _ _ _ Z Q)|apply (z_s _ _ _ _ _ _ Z Q)]. }
  assert (U : utf8_len ind = length ind).
  { apply utf8_ascii. intros c C. apply leading_in in C. destruct C as [C1 C2].
    assert (I : In c (whole b)) by (rewrite (zip_whole _ _ _ _ _ _ Z); apply in_app_iff; right; apply in_app_iff; left; exact C1).
    specialize (NW c I). unfold wide_space in NW. rewrite C2 in NW. cbn [andb] in NW. apply N.leb_gt in NW. exact NW. }
  rewrite U, (zip_upd _ _ _ _ _ _ Z). do 3 eexists. split; [reflexivity|].
  assert (E : type_key h k b = mkWriting (enders (A ++ [p]) ++ ind) (after b) (length ind)).
  { rewrite Ek, <- here_line by exact Fi. f_equal. rewrite (z_before _ _ _ _ _ _ Z), enders_app, enders_cons.
    cbn [enders map concat]. rewrite <- !app_assoc. reflexivity. }
  rewrite E. split.
  - apply (zip_holds _ _ (A ++ [p]) ind s B). constructor; cbn [with_pos with_text e_content e_line e_col e_insert_col before after aim]; try zz; try reflexivity; try assumption.
    + unfold insert_at. rewrite (z_line _ _ _ _ _ _ Z). replace (S (length A)) with (length A + 1) by lia. rewrite firstn_len, skipn_len, <- !app_assoc. reflexivity.
    + rewrite (z_line _ _ _ _ _ _ Z), app_length. reflexivity.
    + apply all_flat_app. split; [zz|]. intros l [<-|[]]. zz.
  - apply kept_changed; try reflexivity. unfold whole. cbn [before after]. rewrite (z_before _ _ _ _ _ _ Z), enders_app, enders_cons.
    cbn [enders map concat]. rewrite !app_length. cbn [length]. lia.
Qed.

Lemma press_does k : plain_key k -> no_wide_spaces (whole b) -> does h k e b (press w h x k e).
Proof.
  intros PK NW. assert (M : minus h 2 = Some (h - 2)) by (unfold minus; destruct (Nat.ltb_spec h 2); [lia|reflexivity]).
  destruct k; cbn [press]; try rewrite M.
  - apply down_does. reflexivity.
  - apply left_does.
  - apply right_does.
  - apply up_does. reflexivity.
  - destruct (Nat.eq_dec (length p) 0); [apply backspace_join|apply backspace_line]; assumption.
  - apply newline_does; [exact NW|reflexivity].
  - apply char_does. apply PK.
  - apply delete_does. reflexivity.
  - apply end_does.
  - apply delete_does. reflexivity.
  - apply staying. reflexivity.
  - apply staying. reflexivity.
  - apply home_does.
  - apply newline_does; [exact NW|reflexivity].
  - apply down_does. reflexivity.
  - apply up_does. reflexivity.
  - apply tab_does.
  - apply staying. reflexivity.
Qed.
End Keys.

Lemma whole_key h k b c : In c (whole (type_key h k b)) -> In c (whole b) \/ c = 10%N \/ c = 32%N \/ k = KChar c.
Proof.
  assert (Cur : forall n m, In c (whole (cursor_at n m b)) -> In c (whole b)) by (intros n m; rewrite cursor_at_whole; exact (fun x => x)).
  assert (First : forall n l, In c (firstn n l) -> In c l).
  { intros n l I. rewrite <- (firstn_skipn n l). apply in_app_iff. left. exact I. }
  assert (Bef : In c (before b) -> In c (whole b)) by (intros I; apply in_app_iff; left; exact I).
  assert (Aft : In c (after b) -> In c (whole b)) by (intros I; apply in_app_iff; right; exact I).
  assert (FL : forall t, In c (first_line t) -> In c t).
  { induction t as [|d t IH]; [intros []|]. cbn [first_line]. destruct (d =? 10)%N; [intros []|]. intros [I|I]; [left; exact I|right; exact (IH I)]. }
  assert (This : In c (this_line b) -> In c (whole b)).
  { intros I. apply in_app_iff in I. destruct I as [I|I]; [apply Bef|apply Aft, FL, I].
    unfold last_line in I. apply in_rev in I. apply FL in I. apply in_rev in I. exact I. }
  assert (NL : In c (whole (here (before b ++ 10%N :: leading is_whitespace (this_line b)) (after b))) -> In c (whole b) \/ c = 10%N).
  { unfold whole at 1, here. cbn [before after]. intros I. apply in_app_iff in I. destruct I as [I|I]; [|left; exact (Aft I)].
    apply in_app_iff in I. destruct I as [I|[I|I]]; [left; exact (Bef I)|right; congruence|].
    left. apply This. apply leading_in in I. apply I. }
  assert (Tl : In c (whole (mkWriting (before b) (tl (after b)) (aim b))) -> In c (whole b)).
  { unfold whole at 1. cbn [before after]. intros I. apply in_app_iff in I. destruct I as [I|I]; [exact (Bef I)|]. apply Aft.
    destruct (after b); [exact I|right; exact I]. }
  destruct k; cbn [type_key]; intros I; try (left; eapply Cur; exact I); try (left; exact I); try (destruct (NL I); tauto); try (left; exact (Tl I)).
  - destruct (column b =? 0); [left; exact I|left; eapply Cur; exact I].
  - destruct (first_line (after b)); [left; exact I|left; eapply Cur; exact I].
  - left. unfold whole, here in I. cbn [before after] in I. apply in_app_iff in I. destruct I as [I|I]; [|exact (Aft I)].
    apply Bef. eapply First. exact I.
  - unfold whole at 1, here in I. cbn [before after] in I. apply in_app_iff in I. destruct I as [I|I]; [|left; exact (Aft I)].
    apply in_app_iff in I. destruct I as [I|[<-|[]]]; [left; exact (Bef I)|right; right; right; reflexivity].
  - unfold whole at 1, here in I. cbn [before after] in I. apply in_app_iff in I. destruct I as [I|I]; [|left; exact (Aft I)].
    apply in_app_iff in I. destruct I as [I|I]; [left; exact (Bef I)|]. apply repeat_spec in I. right. right. left. exact I.
Qed.

Lemma no_wide_key h k b : plain_key k -> no_wide_spaces (whole b) -> no_wide_spaces (whole (type_key h k b)).
Proof.
  intros PK NW c I. apply whole_key in I. destruct I as [I|[->|[->| ->]]]; [exact (NW c I)|reflexivity|reflexivity|apply PK].
Qed.

(** ** Before a key *)

(** The text is the same, seen through another window. *)
Definition same_text (e e' : editor) : Prop :=
  e_name e' = e_name e /\ e_content e' = e_content e /\ e_dirty e' = e_dirty e /\ e_line e' = e_line e /\
  e_col e' = e_col e /\ e_insert_col e' = e_insert_col e.

Lemma holds_same e e' b : same_text e e' -> holds e b -> holds e' b.
Proof.
  intros (_ & E1 & _ & E2 & E3 & E4) [T L R C M].
  constructor; rewrite ?E2, ?E3, ?E4; try assumption; [rewrite text_enders, E1, <- text_enders; exact T|rewrite E1; exact L].
Qed.

Definition in_window (w h : nat) (e : editor) : Prop :=
  e_vline e <= e_line e < e_vline e + (h - 1) /\ e_vcol e <= e_col e < e_vcol e + w.

Lemma adjust_line_spec h e r : 2 <= h ->
  exists e' r', adjust_line h e r = Some (e', r') /\ same_text e e' /\ e_vcol e' = e_vcol e /\
    e_vline e' <= e_line e' < e_vline e' + (h - 1) /\
    (r' = RFull \/ e' = e /\ r' = r).
Proof.
  intros H. unfold adjust_line. destruct (Nat.ltb_spec (e_line e) (e_vline e)).
  { do 2 eexists. split; [reflexivity|]. split; [repeat split|]. split; [reflexivity|]. cbn [with_view e_vline e_line e_vcol e_col]. split; [lia|]. left. destruct r; reflexivity. }
  unfold minus. destruct (Nat.ltb_spec (e_vline e + h) 2); [lia|]. destruct (Nat.ltb_spec (e_vline e + h - 2) (e_line e)).
  - destruct (Nat.ltb_spec h 2); [lia|]. do 2 eexists. split; [reflexivity|]. split; [repeat split|]. split; [reflexivity|].
    cbn [with_view e_vline e_line e_vcol e_col]. split; [destruct (Nat.ltb_spec (h - 2) (e_line e)); lia|]. left. destruct r; reflexivity.
  - do 2 eexists. split; [reflexivity|]. split; [repeat split|]. split; [reflexivity|]. split; [lia|]. right. split; reflexivity.
Qed.
Lemma adjust_col_spec w e r : 1 <= w ->
  exists e' r', adjust_col w e r = Some (e', r') /\ same_text e e' /\ e_vline e' = e_vline e /\
    e_vcol e' <= e_col e' < e_vcol e' + w /\ (r' = RFull \/ e' = e /\ r' = r).
Proof.
  intros H. unfold adjust_col. destruct (Nat.ltb_spec (e_col e) (e_vcol e)).
  { do 2 eexists. split; [reflexivity|]. split; [repeat split|]. split; [reflexivity|]. cbn [with_view e_vline e_line e_vcol e_col]. split; [lia|]. left. destruct r; reflexivity. }
  destruct (Nat.leb_spec (e_vcol e + w) (e_col e)).
  - unfold minus. destruct (Nat.ltb_spec (e_col e) w); [lia|]. do 2 eexists. split; [reflexivity|]. split; [repeat split|]. split; [reflexivity|].
    cbn [with_view e_vline e_line e_vcol e_col]. split; [lia|]. left. destruct r; reflexivity.
  - do 2 eexists. split; [reflexivity|]. split; [repeat split|]. split; [reflexivity|]. split; [lia|]. right. split; reflexivity.
Qed.

Lemma before_key_spec w h e r : 1 <= w -> 2 <= h -> e_line e < length (e_content e) ->
  exists e' r' ops, before_key w h e r = Some (e', (e_col e' - e_vcol e', e_line e' - e_vline e'),
                        ops ++ [ELocate (e_col e' - e_vcol e') (e_line e' - e_vline e'); EShow; ESyncNow]) /\
    draw w h e' r' = Some ops /\ same_text e e' /\ in_window w h e' /\ (r' = RFull \/ e' = e /\ r' = r).
Proof.
  intros W H L. unfold before_key. destruct (adjust_line_spec h e r H) as (e1 & r1 & -> & S1 & V1 & I1 & C1).
  destruct (adjust_col_spec w e1 r1 W) as (e2 & r2 & -> & S2 & V2 & I2 & C2).
  assert (Sm : same_text e e2).
  { destruct S1 as (A1 & A2 & A3 & A4 & A5 & A6), S2 as (B1 & B2 & B3 & B4 & B5 & B6). repeat split; congruence. }
  assert (I : in_window w h e2).
  { split; [|exact I2]. destruct S2 as (_ & _ & _ & B4 & _). rewrite V2, B4. exact I1. }
  assert (D : exists ops, draw w h e2 r2 = Some ops).
  { assert (Hs : refresh_status w h e2 = Some [ELocate 0 (h - 1); status_color; EWrite (status_text w e2)]).
    { destruct h as [|h']; [lia|]. unfold refresh_status. replace (S h' - 1) with h' by lia. reflexivity. }
    destruct r2; cbn [draw].
    - rewrite Hs. eexists. reflexivity.
    - rewrite Hs. unfold refresh_current_line, minus. destruct I as [I _]. destruct (Nat.ltb_spec (e_line e2) (e_vline e2)); [lia|].
      unfold line_at. destruct Sm as (_ & Q & _ & Q2 & _). rewrite Q, Q2. destruct (nth_error (e_content e) (e_line e)) eqn:E; [eexists; reflexivity|].
      apply nth_error_None in E. lia.
    - unfold refresh_all. rewrite Hs. eexists. reflexivity. }
  destruct D as (ops & D). rewrite D. exists e2, r2, ops. unfold minus. destruct I as [Ia Ib].
  destruct (Nat.ltb_spec (e_col e2) (e_vcol e2)); [lia|]. destruct (Nat.ltb_spec (e_line e2) (e_vline e2)); [lia|].
  split; [reflexivity|]. split; [exact D|]. split; [exact Sm|]. split; [split; assumption|].
  destruct C2 as [->|[-> ->]]; [left; reflexivity|]. destruct C1 as [->|[-> ->]]; [left; reflexivity|right; split; reflexivity].
Qed.

Lemma holds_line e b : holds e b -> e_line e < length (e_content e).
Proof.
  intros Hb. destruct (holds_zip e b Hb) as (A & p & s & B & Z). rewrite (zip_length _ _ _ _ _ _ Z), (z_line _ _ _ _ _ _ Z). lia.
Qed.

(** ** The loop *)

Section Loop.
Variables (w h : nat).
Hypothesis W : 1 <= w.
Hypothesis H : 2 <= h.

Lemma press_holds x k e b : holds e b -> plain_key k -> no_wide_spaces (whole b) -> does h k e b (press w h x k e).
Proof.
  intros Hb PK NW. destruct (holds_zip e b Hb) as (A & p & s & B & Z). apply press_does with A p s B; assumption.
Qed.

(** What is in the editor after some keys. *)
Definition after_keys (keys : list key) (b : writing) (e e' : editor) : Prop :=
  holds e' (type_keys h keys b) /\ e_name e' = e_name e /\ e_dirty e' = e_dirty e || modifies h keys b.

Lemma loop_waiting keys : forall e b r, holds e b -> no_wide_spaces (whole b) -> Forall plain_key keys ->
  (forall k, In k keys -> leaves k = false) ->
  exists e' ops, edit_loop w h keys e r = Some (Waiting e', ops) /\ after_keys keys b e e'.
Proof.
  induction keys as [|k keys IH]; intros e b r Hb NW PK NL.
  - cbn [edit_loop]. destruct (before_key_spec w h e r W H (holds_line e b Hb)) as (e' & r' & ops & -> & _ & Sm & _).
    do 2 eexists. split; [reflexivity|]. split; [exact (holds_same _ _ _ Sm Hb)|]. destruct Sm as (S1 & _ & S3 & _).
    split; [exact S1|]. cbn [modifies]. rewrite S3, orb_false_r. reflexivity.
  - cbn [edit_loop]. destruct (before_key_spec w h e r W H (holds_line e b Hb)) as (e1 & r1 & ops & -> & _ & Sm & _).
    rewrite (NL k (or_introl eq_refl)). inversion PK as [|? ? PK1 PK2]; subst.
    destruct (press_holds (e_col e1 - e_vcol e1) k e1 b (holds_same _ _ _ Sm Hb) PK1 NW) as (e2 & r2 & ops2 & -> & H2 & K1 & _ & _ & K4).
    destruct (IH e2 _ r2 H2 (no_wide_key h k b PK1 NW) PK2 (fun k' I => NL k' (or_intror I))) as (e3 & ops3 & -> & H3 & N3 & D3).
    do 2 eexists. split; [reflexivity|]. split; [exact H3|]. destruct Sm as (S1 & _ & S3 & _). split; [congruence|].
    cbn [modifies]. rewrite D3, K4, S3, orb_assoc. reflexivity.
Qed.

Lemma loop_left keys k rest : forall e b r, holds e b -> no_wide_spaces (whole b) -> Forall plain_key keys ->
  (forall k, In k keys -> leaves k = false) -> leaves k = true ->
  exists e' ops, edit_loop w h (keys ++ k :: rest) e r = Some (Left e' rest, ops) /\ after_keys keys b e e'.
Proof.
  induction keys as [|k1 keys IH]; intros e b r Hb NW PK NL Lk.
  - cbn [edit_loop app]. destruct (before_key_spec w h e r W H (holds_line e b Hb)) as (e' & r' & ops & -> & _ & Sm & _).
    rewrite Lk. do 2 eexists. split; [reflexivity|]. split; [exact (holds_same _ _ _ Sm Hb)|]. destruct Sm as (S1 & _ & S3 & _).
    split; [exact S1|]. cbn [modifies]. rewrite S3, orb_false_r. reflexivity.
  - cbn [edit_loop app]. destruct (before_key_spec w h e r W H (holds_line e b Hb)) as (e1 & r1 & ops & -> & _ & Sm & _).
    rewrite (NL k1 (or_introl eq_refl)). inversion PK as [|? ? PK1 PK2]; subst.
    destruct (press_holds (e_col e1 - e_vcol e1) k1 e1 b (holds_same _ _ _ Sm Hb) PK1 NW) as (e2 & r2 & ops2 & -> & H2 & K1 & _ & _ & K4).
    destruct (IH e2 _ r2 H2 (no_wide_key h k1 b PK1 NW) PK2 (fun k' I => NL k' (or_intror I)) Lk) as (e3 & ops3 & -> & H3 & N3 & D3).
    do 2 eexists. split; [reflexivity|]. split; [exact H3|]. destruct Sm as (S1 & _ & S3 & _). split; [congruence|].
    cbn [modifies]. rewrite D3, K4, S3, orb_assoc. reflexivity.
Qed.
End Loop.

(** ** Panics *)

Lemma upd_len {T} (l : list T) i x : length (upd l i x) = length l.
Proof. apply upd_length. Qed.

Lemma to_insert_total l e : l < length (e_content e) -> exists e', to_insert_col l e = Some e' /\ e_line e' < length (e_content e').
Proof.
  intros L. unfold to_insert_col, line_at. destruct (nth_error (e_content e) l) eqn:E; [|apply nth_error_None in E; lia].
  eexists. split; [reflexivity|exact L].
Qed.
Lemma join_total l e : S l < length (e_content e) -> exists e', join_next_line_into l e = Some e' /\
  length (e_content e') = length (e_content e) - 1 /\ e_line e' = e_line e.
Proof.
  intros L. unfold join_next_line_into, line_at. destruct (nth_error (e_content e) (S l)) eqn:E1; [|apply nth_error_None in E1; lia].
  destruct (nth_error (e_content e) l) eqn:E2; [|apply nth_error_None in E2; lia]. eexists. split; [reflexivity|]. split; [|reflexivity].
  cbn [with_text e_content]. rewrite upd_len. unfold remove_at. rewrite app_length, firstn_length, skipn_length. lia.
Qed.

Lemma press_total w h x k e : 1 <= w -> 2 <= h -> e_line e < length (e_content e) ->
  exists e' r ops, press w h x k e = Some (e', r, ops) /\ e_line e' < length (e_content e').
Proof.
  intros W H L.
  assert (M : minus h 2 = Some (h - 2)) by (unfold minus; destruct (Nat.ltb_spec h 2); [lia|reflexivity]).
  assert (M1 : minus w 1 = Some (w - 1)) by (unfold minus; destruct (Nat.ltb_spec w 1); [lia|reflexivity]).
  assert (La : exists l, line_at e (e_line e) = Some l).
  { unfold line_at. destruct (nth_error (e_content e) (e_line e)) eqn:E; [eexists; reflexivity|apply nth_error_None in E; lia]. }
  destruct La as (l & La).
  assert (Up : forall n, exists e' r ops, quietly (move_up n e) = Some (e', r, ops) /\ e_line e' < length (e_content e')).
  { intros n. unfold move_up. assert (T : exists e', (if n <? e_line e then to_insert_col (e_line e - n) e else to_insert_col 0 e) = Some e' /\ e_line e' < length (e_content e')).
    { destruct (n <? e_line e); apply to_insert_total; lia. }
    destruct T as (e' & -> & T). do 3 eexists. split; [reflexivity|exact T]. }
  assert (Down : forall n, exists e' r ops, quietly (move_down n e) = Some (e', r, ops) /\ e_line e' < length (e_content e')).
  { intros n. unfold move_down, minus.
    assert (T : exists e', (if e_line e + n <? length (e_content e) then to_insert_col (e_line e + n) e
                            else match (if length (e_content e) <? 1 then None else Some (length (e_content e) - 1)) with
                                 Some l => to_insert_col l e | None => None end) = Some e' /\ e_line e' < length (e_content e')).
    { destruct (Nat.ltb_spec (e_line e + n) (length (e_content e))); [apply to_insert_total; lia|].
      destruct (Nat.ltb_spec (length (e_content e)) 1); [lia|]. apply to_insert_total; lia. }
    destruct T as (e' & -> & T). do 3 eexists. split; [reflexivity|exact T]. }
  assert (Del : exists e' r ops, delete_key e = Some (e', r, ops) /\ e_line e' < length (e_content e')).
  { unfold delete_key. rewrite La. destruct (e_col e <? length l).
    - match goal with |- context [if ?c then _ else _] => destruct c end; do 3 eexists; (split; [reflexivity|]); cbn [set_line with_text e_line e_content]; rewrite upd_len; exact L.
    - destruct (Nat.ltb_spec (e_line e + 1) (length (e_content e))).
      + destruct (join_total (e_line e) e) as (e' & -> & E1 & E2); [lia|]. do 3 eexists. split; [reflexivity|]. rewrite E1, E2. lia.
      + do 3 eexists. split; [reflexivity|exact L]. }
  assert (NL : exists e' r ops, newline_key e = Some (e', r, ops) /\ e_line e' < length (e_content e')).
  { unfold newline_key. rewrite La. do 3 eexists. split; [reflexivity|]. cbn [with_pos with_text e_line e_content].
    unfold insert_at. rewrite app_length, firstn_length. cbn [length]. rewrite skipn_length, !upd_len.
    change (@length (list N) (e_content e)) with (@length ustr (e_content e)) in *. lia. }
  destruct k; cbn [press]; rewrite ?M, ?La; try apply Up; try apply Down; try exact Del; try exact NL;
    try (do 3 eexists; split; [reflexivity|exact L]).
  - do 3 eexists. split; [reflexivity|]. destruct (0 <? e_col e); exact L.
  - do 3 eexists. split; [reflexivity|]. destruct (e_col e <? length l); exact L.
  - unfold backspace. rewrite La. destruct (Nat.ltb_spec 0 (e_col e)).
    + do 3 eexists. split; [reflexivity|]. match goal with |- context [if ?c then _ else _] => destruct c end;
        cbn [set_line with_text with_pos e_line e_content]; rewrite ?upd_len; exact L.
    + destruct (Nat.ltb_spec 0 (e_line e)).
      * unfold line_at. destruct (nth_error (e_content e) (e_line e - 1)) eqn:E; [|apply nth_error_None in E; lia].
        destruct (join_total (e_line e - 1) e) as (e' & -> & E1 & E2); [lia|]. do 3 eexists. split; [reflexivity|].
        cbn [with_pos e_line e_content]. rewrite E1, E2. lia.
      * do 3 eexists. split; [reflexivity|exact L].
  - unfold char_key. rewrite La, M1. do 3 eexists. split; [reflexivity|]. cbn [set_line with_pos with_text e_line e_content]. rewrite upd_len. exact L.
  - unfold home_key. rewrite La. do 3 eexists. split; [reflexivity|exact L].
  - unfold tab_key. rewrite La. do 3 eexists. split; [reflexivity|]. cbn [set_line with_pos with_text e_line e_content]. rewrite upd_len. exact L.
Qed.

Lemma loop_total w h : 1 <= w -> 2 <= h -> forall keys e r, e_line e < length (e_content e) ->
  exists res ops, edit_loop w h keys e r = Some (res, ops) /\
    let e' := match res with Waiting e' | Left e' _ => e' end in e_line e' < length (e_content e') /\ in_window w h e'.
Proof.
  intros W H. induction keys as [|k keys IH]; intros e r L; cbn [edit_loop];
    destruct (before_key_spec w h e r W H L) as (e1 & r1 & ops & -> & _ & Sm & I & _);
    assert (L1 : e_line e1 < length (e_content e1)) by (destruct Sm as (_ & -> & _ & -> & _); exact L).
  - do 2 eexists. split; [reflexivity|]. split; assumption.
  - destruct (leaves k); [do 2 eexists; split; [reflexivity|]; split; assumption|].
    destruct (press_total w h (e_col e1 - e_vcol e1) k e1 W H L1) as (e2 & r2 & ops2 & -> & L2).
    destruct (IH e2 r2 L2) as (res & ops3 & -> & R). do 2 eexists. split; [reflexivity|exact R].
Qed.

(** ** Texts of files *)

Lemma unix_app q c t : flat q -> c <> 10%N -> unix_text (q ++ c :: t) = q ++ unix_text (c :: t).
Proof.
  intros F C. induction q as [|d q IH]; [reflexivity|]. assert (Fq : flat q) by (intros I; apply F; right; exact I).
  cbn [app]. rewrite <- IH by exact Fq. destruct q as [|d2 q]; cbn [app unix_text].
  - destruct (N.eqb_spec c 10); [contradiction|]. rewrite andb_false_r. reflexivity.
  - destruct (N.eqb_spec d2 10) as [->|]; [destruct F; right; left; reflexivity|]. rewrite andb_false_r. reflexivity.
Qed.
Lemma unix_newline r : unix_text (10%N :: r) = 10%N :: unix_text r.
Proof. destruct r; reflexivity. Qed.

Lemma strip_cr_cr q : strip_cr (q ++ [13%N]) = q.
Proof. unfold strip_cr. rewrite rev_app_distr. cbn [rev app]. rewrite N.eqb_refl. apply rev_involutive. Qed.
Lemma strip_cr_other q c : c <> 13%N -> strip_cr (q ++ [c]) = q ++ [c].
Proof. intros C. unfold strip_cr. rewrite rev_app_distr. cbn [rev app]. destruct (N.eqb_spec c 13); [contradiction|reflexivity]. Qed.

Lemma enders_lines t : forall cur, flat cur -> enders (lines_from cur t) = unix_text (cur ++ t).
Proof.
  induction t as [|c t IH]; intros cur F; cbn [lines_from].
  - rewrite app_nil_r. destruct cur as [|d cur _] using rev_ind; [reflexivity|].
    apply flat_app in F. destruct F as [F D]. assert (d <> 10%N) by (intros ->; apply D; left; reflexivity).
    rewrite (unix_app cur d []) by assumption. cbn [unix_text]. destruct (N.eqb_spec d 10); [contradiction|].
    destruct (cur ++ [d]) as [|x l] eqn:E; [destruct cur; discriminate|]. rewrite <- E, enders_cons, <- app_assoc. reflexivity.
  - destruct (N.eqb_spec c 10) as [->|C].
    + rewrite enders_cons, IH by (intros []). cbn [app]. destruct cur as [|d cur _] using rev_ind.
      * symmetry. apply unix_newline.
      * apply flat_app in F. destruct F as [F D]. assert (d <> 10%N) by (intros ->; apply D; left; reflexivity).
        rewrite <- app_assoc. cbn [app]. rewrite unix_app by assumption. destruct (N.eq_dec d 13) as [->|Q].
        -- rewrite strip_cr_cr. f_equal. cbn [unix_text N.eqb Pos.eqb andb]. symmetry. apply unix_newline.
        -- rewrite strip_cr_other, <- app_assoc by exact Q. f_equal. cbn [app unix_text]. destruct (N.eqb_spec d 13); [contradiction|].
           cbn [andb]. f_equal. symmetry. apply unix_newline.
    + rewrite IH, <- app_assoc; [reflexivity|]. apply flat_app. split; [exact F|]. intros [Q|[]]. congruence.
Qed.

Lemma load_text name t e : text (load name t e) = unix_text t.
Proof. rewrite text_enders. apply (enders_lines t []). intros []. Qed.

Lemma lines_flat t : forall cur, flat cur -> all_flat (lines_from cur t).
Proof.
  induction t as [|c t IH]; intros cur F; cbn [lines_from].
  - destruct cur; [intros l []|]. intros l [<-|[]]. exact F.
  - destruct (N.eqb_spec c 10) as [->|C].
    + apply all_flat_cons. split; [|apply IH; intros []]. destruct cur as [|d cur _] using rev_ind; [exact F|].
      destruct (N.eq_dec d 13) as [->|Q]; [rewrite strip_cr_cr; apply flat_app in F; apply F|rewrite strip_cr_other by exact Q; exact F].
    + apply IH. apply flat_app. split; [exact F|]. intros [Q|[]]. congruence.
Qed.

Lemma unix_last t : t <> [] -> exists q, unix_text t = q ++ [10%N].
Proof.
  induction t as [|c t IH]; [congruence|]. intros _. cbn [unix_text]. destruct t as [|d t].
  - destruct (N.eqb_spec c 10) as [->|]; [exists []|exists [c]]; reflexivity.
  - destruct IH as (q & E); [discriminate|]. rewrite E. destruct (_ && _); [exists q|exists (c :: q)]; reflexivity.
Qed.
Lemma unix_in c t : In c (unix_text t) -> In c t \/ c = 10%N.
Proof.
  induction t as [|d t IH]; [intros []|]. cbn [unix_text]. destruct t as [|d2 t].
  - destruct (d =? 10)%N; [intros [->|[]]; left; left; reflexivity|intros [->|[<-|[]]]; [left; left; reflexivity|right; reflexivity]].
  - destruct (_ && _).
    + intros I. destruct (IH I); [left; right|right]; assumption.
    + intros [->|I]; [left; left; reflexivity|]. destruct (IH I); [left; right|right]; assumption.
Qed.

(** ** Histories *)

Definition on_file (e : editor) (p : paper) : Prop :=
  e_name e = p_name p /\ e_dirty e = p_dirty p /\ no_wide_spaces (whole (p_writing p)) /\
  if p_empty p then e_content e = [] /\ e_line e = 0 /\ e_col e = 0 /\ e_insert_col e = 0 /\ p_writing p = mkWriting [] [] 0
  else holds e (p_writing p).

Lemma on_file_text e p : on_file e p -> text e = paper_text p.
Proof.
  intros (_ & _ & _ & H). unfold paper_text. destruct (p_empty p); [|apply H]. destruct H as (H & _). rewrite text_enders, H. reflexivity.
Qed.

Lemma load_file name t e : no_wide_spaces t -> on_file (load name t e) (on_paper (mkPaper None (mkWriting [] [] 0) true false) (Loaded name t)).
Proof.
  intros NW. split; [reflexivity|]. split; [reflexivity|]. cbn [on_paper p_writing p_empty].
  assert (R : forall c, In c (removelast (unix_text t)) -> In c t \/ c = 10%N).
  { intros c I. apply unix_in. destruct (unix_text t) as [|x l _] using rev_ind; [exact I|]. rewrite removelast_last in I. apply in_app_iff. left. exact I. }
  split.
  { unfold whole. cbn [before after app]. intros c I. destruct (R c I) as [Q| ->]; [exact (NW c Q)|reflexivity]. }
  destruct t as [|c t]; [repeat split|]. destruct (unix_last (c :: t)) as (q & E); [discriminate|].
  constructor; try reflexivity.
  - rewrite load_text. unfold whole. cbn [before after app]. rewrite E, removelast_last. reflexivity.
  - apply (lines_flat (c :: t) []). intros [].
Qed.

Lemma with_a_line_same e b : holds e b -> with_a_line e = e.
Proof. intros Hb. unfold with_a_line. destruct (e_content e) eqn:E; [|reflexivity]. pose proof (holds_line _ _ Hb) as L. rewrite E in L. cbn in L. lia. Qed.

Lemma with_a_line_holds e p : on_file e p -> holds (with_a_line e) (p_writing p) /\ e_name (with_a_line e) = p_name p /\ e_dirty (with_a_line e) = p_dirty p.
Proof.
  intros (N1 & D1 & _ & H). unfold with_a_line. destruct (p_empty p).
  - destruct H as (Ec & El & Eco & Ei & Ew). rewrite Ec. split; [|split; assumption]. rewrite Ew.
    constructor; cbn [with_text e_content e_line e_col e_insert_col]; try assumption; [reflexivity|]. intros l [<-|[]] [].
  - destruct (e_content e) eqn:E; [|split; [exact H|split; assumption]]. exfalso. pose proof (holds_line _ _ H) as L. rewrite E in L. cbn in L. lia.
Qed.

Lemma no_wide_keys h keys : forall b, Forall plain_key keys -> no_wide_spaces (whole b) -> no_wide_spaces (whole (type_keys h keys b)).
Proof.
  induction keys as [|k keys IH]; intros b PK NW; [exact NW|]. inversion PK; subst. apply IH; [assumption|]. apply no_wide_key; assumption.
Qed.

Lemma event_spec v e p : good_event v -> on_file e p -> exists e', in_code (Some e) v = Some e' /\ on_file e' (on_paper p v).
Proof.
  intros G F. destruct v as [name t|name|w h keys]; cbn [in_code on_paper good_event] in *.
  - eexists. split; [reflexivity|]. apply (load_file name t e G).
  - eexists. split; [reflexivity|]. destruct F as (N1 & D1 & NW & H). split; [reflexivity|]. split; [reflexivity|]. split; [exact NW|].
    cbn [p_empty p_writing]. destruct (p_empty p); [exact H|]. destruct H as [T L R C M]. constructor; assumption.
  - destruct G as (W & H & PK & NL). destruct (with_a_line_holds e p F) as (Hb & Hn & Hd). destruct F as (_ & _ & NW & _).
    unfold edit, edit_interactively.
    destruct (loop_left w h W H keys KEscape [] (with_a_line e) _ RFull Hb NW PK NL eq_refl) as (e' & ops & -> & H1 & H2 & H3).
    eexists. split; [reflexivity|]. split; [cbn [p_name]; congruence|]. split; [cbn [p_dirty]; congruence|].
    split; [apply no_wide_keys; assumption|exact H1].
Qed.

Lemma events_spec vs : forall e p, Forall good_event vs -> on_file e p ->
  exists e', fold_left in_code vs (Some e) = Some e' /\ on_file e' (fold_left on_paper vs p).
Proof.
  induction vs as [|v vs IH]; intros e p G F; cbn [fold_left]; [exists e; split; [reflexivity|exact F]|].
  inversion G; subst. destruct (event_spec v e p) as (e1 & -> & F1); try assumption. apply IH; assumption.
Qed.

(** ** Saving and loading *)

Lemma lines_enders A : all_flat A -> lines (enders A) = map strip_cr A.
Proof.
  unfold lines. induction A as [|l A IH]; intros F; [reflexivity|]. apply all_flat_cons in F. destruct F as [Fl FA]. rewrite enders_cons. cbn [map].
  assert (G : forall cur l, flat l -> lines_from cur (l ++ 10%N :: enders A) = strip_cr (cur ++ l) :: lines_from [] (enders A)).
  { clear l Fl. intros cur l. revert cur. induction l as [|c l IHl]; intros cur Fl; cbn [lines_from app].
    - rewrite app_nil_r. reflexivity.
    - destruct (N.eqb_spec c 10) as [->|Q]; [destruct Fl; left; reflexivity|]. rewrite IHl by (intros I; apply Fl; right; exact I). rewrite <- app_assoc. reflexivity. }
  rewrite (G [] l Fl). cbn [app]. rewrite (IH FA). reflexivity.
Qed.
Lemma unix_same t : (forall q r, t <> q ++ 13%N :: 10%N :: r) -> t = [] \/ (exists q, t = q ++ [10%N]) -> unix_text t = t.
Proof.
  induction t as [|c t IH]; intros NC En; [reflexivity|]. destruct t as [|d t].
  - cbn [unix_text]. destruct En as [En|(q & En)]; [discriminate|]. destruct q as [|x q]; [injection En as ->; reflexivity|]. destruct q; discriminate.
  - change (unix_text (c :: d :: t)) with (if ((c =? 13) && (d =? 10))%N then unix_text (d :: t) else c :: unix_text (d :: t)).
    destruct (N.eqb_spec c 13) as [->|]; [destruct (N.eqb_spec d 10) as [->|]|]; cbn [andb]; try (rewrite IH; [reflexivity| |]).
    + destruct (NC [] t). reflexivity.
    + intros q r E. apply (NC (13%N :: q) r). cbn [app]. congruence.
    + right. destruct En as [En|([|x q] & En)]; [discriminate|discriminate|]. injection En as _ En. exists q. exact En.
    + intros q r E. apply (NC (c :: q) r). cbn [app]. congruence.
    + right. destruct En as [En|([|x q] & En)]; [discriminate|discriminate|]. injection En as _ En. exists q. exact En.
Qed.
Lemma strip_cr_same l : (forall q, l <> q ++ [13%N]) -> strip_cr l = l.
Proof.
  intros N. destruct l as [|c l _] using rev_ind; [reflexivity|]. apply strip_cr_other. intros ->. exact (N l eq_refl).
Qed.
