(** Proofs about what the editor shows. *)
From Coq Require Import String.
From Verif Require Import Base Strings_Model Readline_Model Gfx_Model Gfx_Spec Editor_Model Editor_Spec Editor_Proofs.
Local Open Scope string_scope.
Local Open Scope nat_scope.
Local Open Scope list_scope.

Definition tc : color := (Some 7%N, None).
Definition sc : color := (Some 15%N, Some 4%N).

Definition clean (c : N) : N := if (c <? 32)%N || (c =? 127)%N || ((128 <=? c) && (c <? 160))%N then 32%N else c.
Lemma printable_map t : printable t = map clean t.
Proof. reflexivity. Qed.
Lemma printable_length t : length (printable t) = length t.
Proof. apply map_length. Qed.
Lemma printable_nth c t : nth c (printable t) 32%N = clean (nth c t 32%N).
Proof. rewrite printable_map. exact (map_nth clean t 32%N c). Qed.

Lemma nth_shift {T} n k (l : list T) d : nth k (skipn n l) d = nth (n + k) l d.
Proof.
  revert l. induction n as [|n IH]; intros l; [reflexivity|]. destruct l as [|a l]; [destruct k; reflexivity|]. cbn [skipn Nat.add nth]. apply IH.
Qed.
Lemma nth_prefix {T} n k (l : list T) d : k < n -> nth k (firstn n l) d = nth k l d.
Proof.
  revert k l. induction n as [|n IH]; intros k l K; [lia|]. destruct l as [|a l]; [reflexivity|]. destruct k; [reflexivity|]. cbn [firstn nth]. apply IH. lia.
Qed.

(** ** Operations on a screen *)

Section Screen.
Variables (w h : nat).
Hypothesis W : 1 <= w.
Hypothesis H : 2 <= h.

(** Everything but the cells. *)
Definition rest_same (s s' : screen) : Prop := g_on s' = g_on s /\ g_color s' = g_color s /\ g_saved s' = g_saved s.

Lemma type_row t : forall s, g_x s + length t <= w ->
  let s' := type_glyphs w h t s in
  g_x s' = g_x s + length t /\ g_y s' = g_y s /\ rest_same s s' /\
  forall c r, g_cell s' c r =
    if (r =? g_y s) && (g_x s <=? c) && (c <? g_x s + length t) then (nth (c - g_x s) (printable t) 32%N, g_color s) else g_cell s c r.
Proof.
  unfold type_glyphs. rewrite printable_map. induction t as [|a t IH]; intros s L; cbn [map fold_left length] in *.
  - split; [lia|]. split; [reflexivity|]. split; [repeat split|]. intros c r.
    destruct (Nat.leb_spec (g_x s) c), (Nat.ltb_spec c (g_x s + 0)); rewrite ?andb_false_r; try reflexivity; lia.
  - set (s1 := type_glyph w h s (clean a)).
    assert (E1 : g_x s1 = g_x s + 1 /\ g_y s1 = g_y s /\ rest_same s s1 /\
                 forall c r, g_cell s1 c r = if (c =? g_x s) && (r =? g_y s) then (clean a, g_color s) else g_cell s c r).
    { unfold s1, type_glyph. destruct (Nat.ltb_spec (g_x s) w); [|lia]. repeat split. }
    destruct E1 as (X1 & Y1 & (O1 & C1 & S1) & G1). destruct (IH s1) as (X2 & Y2 & (O2 & C2 & S2) & G2); [lia|].
    split; [rewrite X2; lia|]. split; [congruence|]. split; [repeat split; congruence|]. intros c r. rewrite G2, G1, X1, Y1, C1.
    destruct (Nat.eqb_spec r (g_y s)); [|rewrite andb_false_r; reflexivity]. rewrite andb_true_r. cbn [andb].
    destruct (Nat.leb_spec (g_x s + 1) c), (Nat.ltb_spec c (g_x s + 1 + length t)), (Nat.leb_spec (g_x s) c), (Nat.ltb_spec c (g_x s + S (length t))),
      (Nat.eqb_spec c (g_x s)); cbn [andb]; try lia; try reflexivity.
    + replace (c - g_x s) with (S (c - (g_x s + 1))) by lia. reflexivity.
    + subst c. rewrite Nat.sub_diag. reflexivity.
Qed.

Lemma acts_app a b s : acts w h (a ++ b) s = acts w h b (acts w h a s).
Proof. apply fold_left_app. Qed.

(** ** What should be in a cell *)

Definition echar (content : list ustr) (l c : nat) : N :=
  match nth_error content l with Some line => nth c (printable line) 32%N | None => 32%N end.

Definition rows_ok (P : nat -> Prop) (e : editor) (s : screen) : Prop :=
  forall c r, c < w -> r < h - 1 -> P r -> g_cell s c r = (echar (e_content e) (e_vline e + r) (e_vcol e + c), tc).
Definition any (r : nat) : Prop := True.

Definition status_ok (e : editor) (s : screen) : Prop :=
  forall c, c < w -> g_cell s c (h - 1) = (nth c (printable (status_text w e)) 32%N, sc).

(** The screen when the editor waits for a key. *)
Record ready (e : editor) (s : screen) : Prop := mkReady {
  y_rows : rows_ok any e s;
  y_status : length (status_text w e) = w -> status_ok e s;
  y_x : g_x s = e_col e - e_vcol e;
  y_y : g_y s = e_line e - e_vline e;
  y_on : g_on s = true;
  y_color : g_color s = tc;
  y_window : in_window w h e
}.

(** The screen after a key. *)
Definition pending (e : editor) (r : refresh) (s : screen) : Prop :=
  match r with
  | RFull => True
  | RCurrentLine => in_window w h e -> rows_ok (fun r => r <> e_line e - e_vline e) e s
  | RNone => in_window w h e -> rows_ok any e s
  end.

(** ** Status *)

Lemma status_len e : length (status_text w e) <= w.
Proof.
  unfold status_text. set (long := u " | " ++ _). set (short := u " " ++ _). set (st := if w <=? _ then _ else _).
  destruct (Nat.ltb_spec w (utf8_len st)) as [L|L]; [rewrite firstn_length; lia|].
  assert (U : forall t : ustr, length t <= utf8_len t).
  { unfold utf8_len. induction t as [|c t IH]; cbn [map list_sum fold_right length]; [lia|]. assert (1 <= utf8_len1 c); [|unfold list_sum in IH; lia].
    unfold utf8_len1. repeat destruct (_ <? _)%N; lia. }
  specialize (U st). lia.
Qed.

Lemma status_acts e s : g_saved s = g_saved s ->
  let s' := acts w h [ELocate 0 (h - 1); status_color; EWrite (status_text w e)] s in
  g_on s' = g_on s /\ g_saved s' = g_saved s /\
  (forall c r, r < h - 1 -> g_cell s' c r = g_cell s c r) /\
  (length (status_text w e) = w -> status_ok e s').
Proof.
  intros _. cbn [acts fold_left act status_color].
  set (s1 := mkScreen _ _ _ _ _ _). destruct (type_row (status_text w e) s1) as (X & Y & (O & C & S) & G).
  { cbn [s1 moved g_x]. pose proof (status_len e). lia. }
  split; [rewrite O; reflexivity|]. split; [rewrite S; reflexivity|]. split.
  - intros c r R. rewrite G. cbn [s1 moved g_y]. destruct (Nat.eqb_spec r (h - 1)); [lia|reflexivity].
  - intros L c Cw. rewrite G. cbn [s1 moved g_y g_x]. rewrite Nat.eqb_refl, L. destruct (Nat.leb_spec 0 c); [|lia].
    destruct (Nat.ltb_spec c (0 + w)); [|lia]. cbn [andb]. rewrite Nat.sub_0_r. reflexivity.
Qed.

(** ** Rows *)

Lemma visible_nth vcol line c : c < w ->
  (if c <? length (visible w vcol line) then nth c (printable (visible w vcol line)) 32%N else 32%N) = nth (vcol + c) (printable line) 32%N.
Proof.
  intros C. rewrite !printable_nth. unfold visible. destruct (Nat.ltb_spec c (length (firstn w (skipn vcol line)))) as [L|L].
  - rewrite nth_prefix, nth_shift by exact C. reflexivity.
  - rewrite firstn_length, skipn_length in L. rewrite nth_overflow; [reflexivity|]. lia.
Qed.

Lemma visible_length vcol line : length (visible w vcol line) <= w.
Proof. unfold visible. rewrite firstn_length. lia. Qed.

Lemma print_row_text vcol line : print_row w vcol line = EPrint (visible w vcol line).
Proof.
  unfold print_row. destruct (Nat.ltb_spec vcol (length line)); [reflexivity|]. unfold visible. rewrite skipn_all2 by lia. rewrite firstn_nil. reflexivity.
Qed.

Lemma print_rows vcol ls : forall s, g_x s = 0 -> g_y s + length ls <= h - 1 -> g_color s = tc ->
  (forall c r, c < w -> g_y s <= r < h - 1 -> g_cell s c r = (32%N, tc)) ->
  let s' := acts w h (map (print_row w vcol) ls) s in
  rest_same s s' /\ forall c r, c < w ->
    (g_y s <= r < h - 1 -> g_cell s' c r = (echar ls (r - g_y s) (vcol + c), tc)) /\
    (r < g_y s \/ h - 1 <= r -> g_cell s' c r = g_cell s c r).
Proof.
  induction ls as [|l ls IH]; intros s X Y C Bl; cbn [map length] in *; [|change (acts w h (print_row w vcol l :: map (print_row w vcol) ls) s)
    with (acts w h (map (print_row w vcol) ls) (act w h s (print_row w vcol l)))].
  - split; [repeat split|]. intros c r Cw. split; [|intros; reflexivity]. intros R. rewrite Bl by assumption. unfold echar. destruct (r - g_y s); reflexivity.
  - rewrite print_row_text. cbn [act].
    destruct (type_row (visible w vcol l) s) as (X1 & Y1 & (O1 & C1 & S1) & G1); [pose proof (visible_length vcol l); lia|].
    set (s1 := type_glyphs w h (visible w vcol l) s) in *. set (s2 := new_row h s1).
    assert (E2 : s2 = moved s1 (g_cell s1) 0 (g_y s1 + 1)).
    { unfold s2, new_row. destruct (Nat.ltb_spec (g_y s1 + 1) h); [reflexivity|lia]. }
    assert (X2 : g_x s2 = 0) by (rewrite E2; reflexivity). assert (Y2 : g_y s2 = g_y s + 1) by (rewrite E2; cbn [moved g_y]; lia).
    assert (G2 : g_cell s2 = g_cell s1) by (rewrite E2; reflexivity).
    destruct (IH s2) as ((O3 & C3 & S3) & G3); [exact X2|lia|rewrite E2; cbn [moved g_color]; congruence| |].
    { intros c r Cw R. rewrite G2, G1. destruct (Nat.eqb_spec r (g_y s)); [lia|]. cbn [andb]. apply Bl; lia. }
    assert (R2 : g_on s2 = g_on s /\ g_color s2 = g_color s /\ g_saved s2 = g_saved s) by (rewrite E2; cbn [moved g_on g_color g_saved]; repeat split; congruence).
    destruct R2 as (O2 & C2 & S2).
    split; [split; [etransitivity; [exact O3|exact O2]|split; [etransitivity; [exact C3|exact C2]|etransitivity; [exact S3|exact S2]]]|].
    intros c r Cw. destruct (G3 c r Cw) as [G3a G3b]. split.
    + intros R. destruct (Nat.eq_dec r (g_y s)) as [->|Q].
      * rewrite G3b by lia. rewrite G2, G1, X, Nat.eqb_refl, C. cbn [andb Nat.leb Nat.add]. rewrite Nat.sub_diag, Nat.sub_0_r. unfold echar. cbn [nth_error].
        rewrite <- visible_nth by exact Cw. destruct (c <? length (visible w vcol l)); [reflexivity|]. apply Bl; [exact Cw|lia].
      * rewrite G3a by lia. unfold echar. replace (r - g_y s) with (S (r - g_y s2)) by lia. reflexivity.
    + intros R. rewrite G3b by lia. rewrite G2, G1. destruct (Nat.eqb_spec r (g_y s)); [lia|reflexivity].
Qed.

Lemma nth_error_firstn {T} n (l : list T) k : nth_error (firstn n l) k = if k <? n then nth_error l k else None.
Proof.
  destruct (Nat.ltb_spec k n) as [L|L].
  - revert n l L. induction k as [|k IH]; intros [|n] l L; try lia; destruct l; cbn [firstn nth_error]; try reflexivity. apply IH. lia.
  - apply nth_error_None. rewrite firstn_length. lia.
Qed.
Lemma nth_error_skipn {T} n (l : list T) k : nth_error (skipn n l) k = nth_error l (n + k).
Proof.
  revert l. induction n as [|n IH]; intros l; [reflexivity|]. destruct l as [|a l]; [destruct k; reflexivity|]. cbn [skipn Nat.add nth_error]. apply IH.
Qed.

(** ** Drawing before a key *)

Lemma draw_ready e r ops s : draw w h e r = Some ops -> pending e r s -> in_window w h e ->
  ready e (acts w h (ops ++ [ELocate (e_col e - e_vcol e) (e_line e - e_vline e); EShow; ESyncNow]) s).
Proof.
  intros D P I. rewrite acts_app.
  assert (Hs : refresh_status w h e = Some [ELocate 0 (h - 1); status_color; EWrite (status_text w e)]).
  { destruct h as [|h']; [lia|]. unfold refresh_status. replace (S h' - 1) with h' by lia. reflexivity. }
  assert (Fin : forall s', g_color s' = tc -> rows_ok any e s' -> (length (status_text w e) = w -> status_ok e s') ->
            ready e (acts w h [ELocate (e_col e - e_vcol e) (e_line e - e_vline e); EShow; ESyncNow] s')).
  { intros s' C R S. cbn [acts fold_left act]. constructor; try reflexivity; assumption. }
  destruct r; cbn [draw] in D; rewrite ?Hs in D; cbn [option_map] in D.
  - assert (E : ops = EHide :: [ELocate 0 (h - 1); status_color; EWrite (status_text w e)] ++ [text_color]) by congruence. subst ops.
    cbn [acts fold_left]. change (fold_left (act w h) ([ELocate 0 (h - 1); status_color; EWrite (status_text w e)] ++ [text_color]) (act w h s EHide))
      with (acts w h ([ELocate 0 (h - 1); status_color; EWrite (status_text w e)] ++ [text_color]) (act w h s EHide)). rewrite acts_app.
    destruct (status_acts e (act w h s EHide) eq_refl) as (_ & _ & G & S). set (s1 := acts w h [ELocate 0 (h - 1); status_color; EWrite (status_text w e)] (act w h s EHide)) in *.
    apply Fin; [reflexivity| |exact S]. intros c r Cw R _. cbn [acts fold_left act text_color g_cell]. rewrite G by exact R. apply (P I); [exact Cw|exact R|exact Logic.I].
  - unfold refresh_current_line in D. destruct (minus (e_line e) (e_vline e)) as [y|] eqn:M; [|discriminate].
    assert (y = e_line e - e_vline e) as -> by (unfold minus in M; destruct (_ <? _); congruence). clear M.
    destruct (line_at e (e_line e)) as [line|] eqn:La; [|discriminate].
    set (S1 := [ELocate 0 (h - 1); status_color; EWrite (status_text w e)]) in *.
    set (S2 := [text_color; ELocate 0 (e_line e - e_vline e); EClear CurrentLine]) in *.
    assert (Wr : acts w h (if e_vcol e <? length line then [EWrite (visible w (e_vcol e) line)] else []) = acts w h [EWrite (visible w (e_vcol e) line)]).
    { destruct (Nat.ltb_spec (e_vcol e) (length line)); [reflexivity|]. unfold visible. rewrite skipn_all2 by lia. rewrite firstn_nil. reflexivity. }
    assert (E : ops = EHide :: S1 ++ S2 ++ (if e_vcol e <? length line then [EWrite (visible w (e_vcol e) line)] else [])) by congruence. subst ops. clear D.
    change (acts w h (EHide :: S1 ++ S2 ++ (if e_vcol e <? length line then [EWrite (visible w (e_vcol e) line)] else [])) s)
      with (acts w h (S1 ++ S2 ++ (if e_vcol e <? length line then [EWrite (visible w (e_vcol e) line)] else [])) (act w h s EHide)).
    rewrite !acts_app, Wr. destruct (status_acts e (act w h s EHide) eq_refl) as (_ & _ & G & S). fold S1 in G, S.
    set (s1 := acts w h S1 (act w h s EHide)) in *. set (s2 := acts w h S2 s1).
    assert (E2 : g_x s2 = 0 /\ g_y s2 = e_line e - e_vline e /\ g_color s2 = tc /\
                 forall c r, g_cell s2 c r = if r =? e_line e - e_vline e then (32%N, tc) else g_cell s1 c r) by (repeat split).
    destruct E2 as (X2 & Y2 & C2 & G2). cbn [acts fold_left act].
    destruct (type_row (visible w (e_vcol e) line) s2) as (X3 & Y3 & (O3 & C3 & S3) & G3); [pose proof (visible_length (e_vcol e) line); lia|].
    set (s3 := type_glyphs w h (visible w (e_vcol e) line) s2) in *. destruct I as [Ia Ib]. apply Fin; [congruence| |].
    + intros c r Cw R _. rewrite G3, X2, Y2, C2, G2. cbn [Nat.leb Nat.add]. rewrite Nat.sub_0_r, andb_true_r. destruct (Nat.eqb_spec r (e_line e - e_vline e)) as [->|Q]; cbn [andb].
      * unfold echar. replace (e_vline e + (e_line e - e_vline e)) with (e_line e) by lia. unfold line_at in La. rewrite La.
        rewrite <- visible_nth by exact Cw. destruct (c <? length (visible w (e_vcol e) line)); reflexivity.
      * rewrite G by exact R. apply P; [split; assumption|exact Cw|exact R|exact Q].
    + intros L c Cw. rewrite G3, Y2, G2. destruct (Nat.eqb_spec (h - 1) (e_line e - e_vline e)); [lia|]. apply (S L c Cw).
  - unfold refresh_all in D. rewrite Hs in D. cbn [option_map] in D.
    set (S1 := [ELocate 0 (h - 1); status_color; EWrite (status_text w e)]) in *. set (R := map _ _) in D.
    assert (E : ops = EHide :: [text_color; EClear All] ++ S1 ++ [text_color; ELocate 0 0] ++ R) by congruence. subst ops. clear D.
    change (acts w h (EHide :: [text_color; EClear All] ++ S1 ++ [text_color; ELocate 0 0] ++ R) s)
      with (acts w h ([text_color; EClear All] ++ S1 ++ [text_color; ELocate 0 0] ++ R) (act w h s EHide)). rewrite !acts_app.
    set (s0 := acts w h [text_color; EClear All] (act w h s EHide)).
    destruct (status_acts e s0 eq_refl) as (_ & _ & G & S). fold S1 in G, S. set (s1 := acts w h S1 s0) in *.
    set (s2 := acts w h [text_color; ELocate 0 0] s1).
    assert (L : length (firstn (h - 1) (skipn (e_vline e) (e_content e))) <= h - 1) by (rewrite firstn_length; lia).
    destruct (print_rows (e_vcol e) (firstn (h - 1) (skipn (e_vline e) (e_content e))) s2) as ((O3 & C3 & S3) & G3);
      [reflexivity|exact L|reflexivity| |].
    { intros c r Cw [_ Rr]. change (g_cell s2 c r) with (g_cell s1 c r). rewrite G by exact Rr. reflexivity. }
    fold R in O3, C3, S3, G3. set (s3 := acts w h R s2) in *. apply Fin.
    + rewrite C3. reflexivity.
    + intros c r Cw Rr _. destruct (G3 c r Cw) as [G3a _]. rewrite G3a by (change (g_y s2) with 0; lia). change (g_y s2) with 0. rewrite Nat.sub_0_r.
      f_equal. unfold echar. rewrite nth_error_firstn, nth_error_skipn. destruct (Nat.ltb_spec r (h - 1)); [reflexivity|lia].
    + intros Ls c Cw. destruct (G3 c (h - 1) Cw) as [_ G3b]. rewrite G3b by lia. exact (S Ls c Cw).
Qed.

(** ** The keys *)

Lemma echar_upd content line l' l c : line < length content ->
  echar (upd content line l') l c = if l =? line then nth c (printable l') 32%N else echar content l c.
Proof.
  intros L. unfold echar. destruct (Nat.eqb_spec l line) as [->|Q].
  - rewrite upd_nth_same by exact L. reflexivity.
  - rewrite upd_nth_other by congruence. reflexivity.
Qed.

Lemma clear_back n : forall s, n <= g_x s ->
  let s' := acts w h (repeat (EClear PreviousChar) n) s in
  forall c r, g_cell s' c r = if (r =? g_y s) && (g_x s - n <=? c) && (c <? g_x s) then (32%N, g_color s) else g_cell s c r.
Proof.
  induction n as [|n IH]; intros s L; cbn [repeat]; [|change (acts w h (EClear PreviousChar :: repeat (EClear PreviousChar) n) s)
    with (acts w h (repeat (EClear PreviousChar) n) (act w h s (EClear PreviousChar)))]; cbv zeta; intros c r.
  - cbn [acts fold_left]. destruct (Nat.leb_spec (g_x s - 0) c), (Nat.ltb_spec c (g_x s)); rewrite ?andb_false_r; try reflexivity; lia.
  - set (s1 := act w h s (EClear PreviousChar)).
    assert (E : g_x s1 = g_x s - 1 /\ g_y s1 = g_y s /\ g_color s1 = g_color s /\ g_cell s1 = put_at (g_x s - 1) (g_y s) (32%N, g_color s) (g_cell s)).
    { unfold s1. cbn [act]. destruct (Nat.ltb_spec 0 (g_x s)); [|lia]. repeat split. }
    destruct E as (E1 & E2 & E3 & E4). rewrite IH by lia. rewrite E1, E2, E3, E4. unfold put_at.
    destruct (Nat.eqb_spec r (g_y s)); rewrite ?andb_false_r; cbn [andb]; [|reflexivity]. rewrite andb_true_r.
    destruct (Nat.leb_spec (g_x s - 1 - n) c), (Nat.ltb_spec c (g_x s - 1)), (Nat.leb_spec (g_x s - S n) c), (Nat.ltb_spec c (g_x s)), (Nat.eqb_spec c (g_x s - 1));
      cbn [andb]; try lia; reflexivity.
Qed.

Lemma nth_printable_app a b c : nth c (printable (a ++ b)) 32%N = if c <? length a then nth c (printable a) 32%N else nth (c - length a) (printable b) 32%N.
Proof.
  rewrite !printable_nth. destruct (Nat.ltb_spec c (length a)); [rewrite app_nth1 by assumption|rewrite app_nth2 by assumption]; reflexivity.
Qed.
Lemma nth_printable_over a c : length a <= c -> nth c (printable a) 32%N = 32%N.
Proof. intros L. apply nth_overflow. rewrite printable_length. exact L. Qed.
Lemma nth_spaces n c : nth c (printable (repeat 32%N n)) 32%N = 32%N.
Proof.
  rewrite printable_nth. replace (nth c (repeat 32%N n) 32%N) with 32%N; [reflexivity|].
  symmetry. destruct (Nat.lt_ge_cases c n); [apply nth_repeat|apply nth_overflow; rewrite repeat_length; assumption].
Qed.

Lemma echar_blank content line l c : (forall x, In x line -> clean x = 32%N) -> length content = l ->
  echar (content ++ [line]) l c = 32%N.
Proof.
  intros Bl <-. unfold echar. rewrite nth_error_app2, Nat.sub_diag by lia. cbn [nth_error]. rewrite printable_nth.
  destruct (Nat.lt_ge_cases c (length line)); [apply Bl, nth_In; assumption|rewrite nth_overflow by assumption; reflexivity].
Qed.

Section Press.
Variables (e : editor) (b : writing) (A : list ustr) (p t : ustr) (B : list ustr) (s : screen).
Hypothesis Z : zip e b A p t B.
Hypothesis Y : ready e s.

(** The window did not move. *)
Definition same_view (e' : editor) : Prop := e_vline e' = e_vline e /\ e_vcol e' = e_vcol e.

Lemma pending_moved e' : same_view e' -> e_content e' = e_content e -> pending e' RNone s.
Proof. intros [V1 V2] C _ c r Cw R _. rewrite V1, V2, C. apply (y_rows _ _ Y); try assumption. exact Logic.I. Qed.

Let L : e_line e < length (e_content e).
Proof. exact (holds_line e b (zip_holds _ _ _ _ _ _ Z)). Qed.

Lemma pending_line e' l : same_view e' -> e_line e' = e_line e -> e_content e' = upd (e_content e) (e_line e) l ->
  pending e' RCurrentLine s.
Proof.
  intros [V1 V2] E C I c r Cw R Q. rewrite V1, V2, C. rewrite V1, E in Q. rewrite echar_upd by exact L.
  pose proof (y_window _ _ Y) as [J _]. destruct (Nat.eqb_spec (e_vline e + r) (e_line e)); [lia|]. apply (y_rows _ _ Y); try assumption. exact Logic.I.
Qed.

(** The cells of the line have been written. *)
Lemma pending_written e' l s' : same_view e' -> e_content e' = upd (e_content e) (e_line e) l ->
  (in_window w h e' -> forall c r, c < w -> r < h - 1 -> g_cell s' c r = if r =? g_y s then (nth (e_vcol e + c) (printable l) 32%N, tc) else g_cell s c r) ->
  pending e' RNone s'.
Proof.
  intros [V1 V2] C G I c r Cw R _. rewrite V1, V2, C, echar_upd by exact L. rewrite G by assumption.
  pose proof (y_window _ _ Y) as [J _]. rewrite (y_y _ _ Y).
  destruct (Nat.eqb_spec (e_vline e + r) (e_line e)), (Nat.eqb_spec r (e_line e - e_vline e)); try lia; [reflexivity|].
  apply (y_rows _ _ Y); try assumption. exact Logic.I.
Qed.

(** What the line of the cursor has now. *)
Lemma cursor_row c : c < w -> g_cell s c (g_y s) = (nth (e_vcol e + c) (printable (p ++ t)) 32%N, tc).
Proof.
  intros Cw. pose proof (y_window _ _ Y) as [J _]. rewrite (y_rows _ _ Y) by (try exact Logic.I; rewrite ?(y_y _ _ Y); lia).
  f_equal. unfold echar. rewrite (y_y _ _ Y). replace (e_vline e + (e_line e - e_vline e)) with (e_line e) by lia.
  pose proof (zip_line_at _ _ _ _ _ _ Z) as La. unfold line_at in La. rewrite La. reflexivity.
Qed.

Lemma write_pending e' new : same_view e' -> t = [] -> e_content e' = upd (e_content e) (e_line e) (p ++ new) ->
  (in_window w h e' -> length p + length new <= e_vcol e + w) -> pending e' RNone (act w h s (EWrite new)).
Proof.
  intros V Et C F. eapply pending_written; [exact V|exact C|]. intros I c r Cw R. specialize (F I). cbn [act].
  pose proof (y_window _ _ Y) as [_ J]. pose proof (z_col _ _ _ _ _ _ Z) as Ec.
  destruct (type_row new s) as (_ & _ & _ & G); [rewrite (y_x _ _ Y); lia|]. rewrite G, (y_x _ _ Y), (y_color _ _ Y).
  destruct (Nat.eqb_spec r (g_y s)) as [->|Q]; [|reflexivity]. cbn [andb]. rewrite cursor_row, Et, app_nil_r by exact Cw.
  rewrite nth_printable_app. destruct (Nat.leb_spec (e_col e - e_vcol e) c), (Nat.ltb_spec c (e_col e - e_vcol e + length new)), (Nat.ltb_spec (e_vcol e + c) (length p));
    cbn [andb]; try lia; try reflexivity.
  - replace (e_vcol e + c - length p) with (c - (e_col e - e_vcol e)) by lia. reflexivity.
  - rewrite !nth_printable_over by lia. reflexivity.
Qed.

Lemma remove_pending e' n : same_view e' -> t = [] -> n <= length p ->
  e_content e' = upd (e_content e) (e_line e) (firstn (length p - n) p) -> e_col e' = length p - n ->
  pending e' RNone (acts w h (EHide :: repeat (EClear PreviousChar) n ++ [EShow]) s).
Proof.
  intros V Et N C Ec'. eapply pending_written; [exact V|exact C|]. intros I c r Cw R.
  pose proof (y_window _ _ Y) as [_ J]. pose proof (z_col _ _ _ _ _ _ Z) as Ec. destruct V as [_ V2]. destruct I as [_ I]. rewrite V2, Ec' in I.
  change (acts w h (EHide :: repeat (EClear PreviousChar) n ++ [EShow]) s) with (acts w h (repeat (EClear PreviousChar) n ++ [EShow]) (act w h s EHide)).
  rewrite acts_app. set (s1 := act w h s EHide). change (g_cell (acts w h [EShow] (acts w h (repeat (EClear PreviousChar) n) s1)) c r)
    with (g_cell (acts w h (repeat (EClear PreviousChar) n) s1) c r). rewrite clear_back by (change (g_x s1) with (g_x s); rewrite (y_x _ _ Y); lia).
  change (g_x s1) with (g_x s). change (g_y s1) with (g_y s). change (g_color s1) with (g_color s). change (g_cell s1 c r) with (g_cell s c r).
  rewrite (y_color _ _ Y), (y_x _ _ Y). destruct (Nat.eqb_spec r (g_y s)) as [->|Q]; [|reflexivity]. cbn [andb]. rewrite cursor_row, Et, app_nil_r by exact Cw.
  destruct (Nat.leb_spec (e_col e - e_vcol e - n) c), (Nat.ltb_spec c (e_col e - e_vcol e)); cbn [andb]; try lia.
  - rewrite nth_printable_over by (rewrite firstn_length; lia). reflexivity.
  - rewrite !nth_printable_over by (rewrite ?firstn_length; lia). reflexivity.
  - f_equal. rewrite !printable_nth, nth_prefix by lia. reflexivity.
Qed.

Lemma until_pending e' : same_view e' -> e_content e' = upd (e_content e) (e_line e) p ->
  pending e' RNone (acts w h [EHide; EClear UntilNewLine; EShow] s).
Proof.
  intros V C. eapply pending_written; [exact V|exact C|]. intros I c r Cw R.
  pose proof (y_window _ _ Y) as [_ J]. pose proof (z_col _ _ _ _ _ _ Z) as Ec.
  cbn [acts fold_left act moved g_cell g_x g_y g_color]. rewrite (y_x _ _ Y), (y_color _ _ Y).
  destruct (Nat.eqb_spec r (g_y s)) as [->|Q]; [|rewrite andb_false_r; reflexivity]. rewrite andb_true_r, cursor_row by exact Cw.
  rewrite nth_printable_app. destruct (Nat.leb_spec (e_col e - e_vcol e) c), (Nat.ltb_spec (e_vcol e + c) (length p)); try lia; try reflexivity.
  rewrite nth_printable_over by lia. reflexivity.
Qed.

Lemma press_pending k x e' r ops : no_wide_spaces (whole b) -> x = e_col e - e_vcol e ->
  press w h x k e = Some (e', r, ops) -> pending e' r (acts w h ops s).
Proof.
  intros NW X E. pose proof (zip_line_at _ _ _ _ _ _ Z) as La. pose proof (z_col _ _ _ _ _ _ Z) as Ec. pose proof (y_window _ _ Y) as [J1 J2].
  assert (Quiet : forall m, (forall e'', m = Some e'' -> same_view e'' /\ e_content e'' = e_content e) -> quietly m = Some (e', r, ops) -> pending e' r (acts w h ops s)).
  { intros [e2|] M Q; cbn [quietly] in Q; [|discriminate]. assert (e2 = e' /\ r = RNone /\ ops = []) as (-> & -> & ->) by (repeat split; congruence).
    destruct (M e' eq_refl) as [V C]. exact (pending_moved e' V C). }
  assert (To : forall l e'', to_insert_col l e = Some e'' -> same_view e'' /\ e_content e'' = e_content e).
  { intros l e'' T. unfold to_insert_col in T. destruct (line_at e l) as [u0|]; [|discriminate]. assert (e'' = with_pos e l (Nat.min (e_insert_col e) (length u0)) (e_insert_col e)) as -> by congruence.
    repeat split. }
  assert (Up : forall n e'', move_up n e = Some e'' -> same_view e'' /\ e_content e'' = e_content e).
  { intros n e'' T. unfold move_up in T. destruct (n <? e_line e); eapply To; exact T. }
  assert (Down : forall n e'', move_down n e = Some e'' -> same_view e'' /\ e_content e'' = e_content e).
  { intros n e'' T. unfold move_down in T. destruct (_ <? _); [eapply To; exact T|]. destruct (minus _ _); [|discriminate]. eapply To; exact T. }
  assert (Still : forall e'' r'' ops'', Some (e'', r'', ops'') = Some (e', r, ops) -> r'' = RNone -> ops'' = [] -> same_view e'' -> e_content e'' = e_content e -> pending e' r (acts w h ops s)).
  { intros e'' r'' ops'' Q -> -> V C. assert (e'' = e' /\ RNone = r /\ [] = ops) as (<- & <- & <-) by (repeat split; congruence). exact (pending_moved e'' V C). }
  pose proof until_pending as UP.
  assert (Del : delete_key e = Some (e', r, ops) -> pending e' r (acts w h ops s)).
  { unfold delete_key. rewrite La, Ec, app_length. intros Q. destruct (Nat.ltb_spec (length p) (length p + length t)) as [M|M].
    - destruct t as [|c t1]; [cbn [length] in M; lia|]. assert (Rm : remove_at (length p) (p ++ c :: t1) = p ++ t1).
      { unfold remove_at. replace (S (length p)) with (length p + 1) by lia. rewrite skipn_len. rewrite <- (Nat.add_0_r (length p)) at 1. rewrite firstn_len, firstn_O, app_nil_r. reflexivity. }
      rewrite Rm, app_length in Q. destruct (Nat.ltb_spec (length p) (length p + length t1)).
      + assert (r = RFull) as -> by congruence. exact Logic.I.
      + destruct t1; [|cbn [length] in *; lia]. rewrite app_nil_r in Q. assert (set_line e p = e' /\ RNone = r /\ [EHide; EClear UntilNewLine; EShow] = ops) as (<- & <- & <-) by (repeat split; congruence).
        apply UP; [repeat split|reflexivity].
    - destruct (_ <? _).
      + destruct (join_next_line_into (e_line e) e); [|discriminate]. assert (r = RFull) as -> by congruence. exact Logic.I.
      + eapply Still; [exact Q| | | |]; try reflexivity. repeat split. }
  assert (NL : newline_key e = Some (e', r, ops) -> pending e' r (acts w h ops s)).
  { unfold newline_key. rewrite La. set (ind := copy_indent (p ++ t)). rewrite Ec, (zip_length _ _ _ _ _ _ Z), (z_line _ _ _ _ _ _ Z), app_length. intros Q.
    destruct (Nat.eqb_spec (length A + 1) (S (length A + length B))) as [M1|M1]; [|cbn [andb] in Q; assert (r = RFull) as -> by congruence; exact Logic.I].
    destruct (Nat.eqb_spec (length p) (length p + length t)) as [M2|M2]; [|cbn [andb] in Q; assert (r = RFull) as -> by congruence; exact Logic.I].
    cbn [andb] in Q. destruct B; [|cbn [length] in M1; lia]. destruct t; [|cbn [length] in M2; lia].
    assert (Ind : forall x, In x ind -> clean x = 32%N).
    { intros y I. unfold ind in I. rewrite copy_indent_spec in I. apply leading_in in I. destruct I as [I1 I2].
      assert (I3 : In y (whole b)) by (rewrite (zip_whole _ _ _ _ _ _ Z); apply in_app_iff; right; apply in_app_iff; left; exact I1).
      specialize (NW y I3). unfold wide_space in NW. rewrite I2 in NW. cbn [andb] in NW. apply N.leb_gt in NW. clear - I2 NW.
      unfold is_whitespace in I2. unfold clean. destruct (N.ltb_spec y 32); [reflexivity|]. cbn [orb].
      assert (y = 32%N) as ->; [|reflexivity].
      repeat match type of I2 with (_ || _)%bool = true => apply orb_true_iff in I2; destruct I2 as [I2|I2] end;
        try (apply N.eqb_eq in I2; lia); apply andb_true_iff in I2; destruct I2 as [I2 I3]; apply N.leb_le in I2, I3; lia. }
    assert (Hr : RNone = r /\ [] = ops) by (split; congruence). destruct Hr as [<- <-].
    assert (C : e_content e' = e_content e ++ [ind] /\ same_view e').
    { assert (Ee : e' = with_pos (with_text e (insert_at (S (length A)) (ind ++ skipn (length p) (p ++ [])) (upd (e_content e) (length A) (firstn (length p) (p ++ [])))) true) (length A + 1) (utf8_len ind) (utf8_len ind)) by congruence.
      rewrite Ee. cbn [with_pos with_text e_content]. split; [|repeat split]. rewrite app_nil_r, firstn_all, skipn_all, app_nil_r. rewrite (z_content _ _ _ _ _ _ Z), app_nil_r.
      rewrite upd_mid. unfold insert_at. replace (S (length A)) with (length A + 1) by lia. rewrite firstn_len, skipn_len, <- !app_assoc. reflexivity. }
    destruct C as [C [V1 V2]]. intros I c r Cw R _. rewrite C, V1, V2. cbn [acts fold_left]. rewrite (y_rows _ _ Y) by (try exact Logic.I; assumption). f_equal.
    destruct (Nat.lt_trichotomy (e_vline e + r) (length (e_content e))) as [Q1|[Q1|Q1]].
    - unfold echar. rewrite nth_error_app1 by exact Q1. reflexivity.
    - rewrite echar_blank by (try exact Ind; symmetry; exact Q1). unfold echar. replace (nth_error (e_content e) (e_vline e + r)) with (@None ustr); [reflexivity|].
      symmetry. apply nth_error_None. change (@length (list N) (e_content e)) with (@length ustr (e_content e)). lia.
    - unfold echar. replace (nth_error (e_content e) (e_vline e + r)) with (@None ustr). 2: { symmetry. apply nth_error_None. change (@length (list N) (e_content e)) with (@length ustr (e_content e)). lia. }
      replace (nth_error (e_content e ++ [ind]) (e_vline e + r)) with (@None ustr); [reflexivity|]. symmetry. apply nth_error_None. rewrite app_length. cbn [length]. change (@length (list N) (e_content e)) with (@length ustr (e_content e)). lia. }
  destruct k; cbn [press] in E.
  - eapply Quiet; [|exact E]. apply Down.
  - eapply Still; [exact E| | | |]; try reflexivity; destruct (0 <? e_col e); repeat split.
  - rewrite La in E. eapply Still; [exact E| | | |]; try reflexivity; destruct (e_col e <? _); repeat split.
  - eapply Quiet; [|exact E]. apply Up.
  - unfold backspace in E. rewrite La, Ec in E. destruct (Nat.ltb_spec 0 (length p)) as [Hp|Hp].
    + rewrite indent_end, (leading_all p t) in E. set (n := if forallb is_space p then _ else _) in E.
      assert (Hn : 1 <= n <= length p).
      { unfold n, indentation_back, indent_width. pose proof (Nat.div_mod (length p - 1) 4). pose proof (Nat.mod_upper_bound (length p - 1) 4).
        destruct (forallb is_space p); [|lia]. destruct (Nat.leb_spec 4 (length p)); lia. }
      destruct (Nat.ltb_spec 0 n); [|lia]. rewrite (remove_before_spec w h t W H), app_length, andb_true_r in E by lia.
      destruct (Nat.eqb_spec (length p) (length p + length t)) as [M|M].
      * assert (t = []) as Et by (destruct t; [reflexivity|cbn [length] in M; lia]).
        assert (Ee : e' = set_line (with_pos e (e_line e) (length p - n) (length p - n)) (firstn (length p - n) p ++ t)) by congruence.
        assert (RNone = r /\ EHide :: repeat (EClear PreviousChar) n ++ [EShow] = ops) as [<- <-] by (split; congruence).
        apply remove_pending with (n := n); [rewrite Ee; repeat split|exact Et|lia|rewrite Ee, Et, app_nil_r; reflexivity|rewrite Ee; reflexivity].
      * assert (Ee : e' = set_line (with_pos e (e_line e) (length p - n) (length p - n)) (firstn (length p - n) p ++ t)) by congruence.
        assert (RCurrentLine = r /\ [] = ops) as [<- <-] by (split; congruence).
        eapply pending_line; [rewrite Ee; repeat split|rewrite Ee; reflexivity|rewrite Ee; reflexivity].
    + destruct (0 <? e_line e).
      * destruct (line_at e (e_line e - 1)); [|discriminate]. destruct (join_next_line_into (e_line e - 1) e); [|discriminate].
        assert (r = RFull) as -> by congruence. exact Logic.I.
      * eapply Still; [exact E| | | |]; try reflexivity; repeat split.
  - apply NL, E.
  - unfold char_key in E. rewrite La in E. assert (M1 : minus w 1 = Some (w - 1)) by (unfold minus; destruct (Nat.ltb_spec w 1); [lia|reflexivity]).
    rewrite M1, Ec, app_length, (firstn_p p t), (skipn_p p t) in E.
    set (e2 := with_pos (set_line e (p ++ c :: t)) (e_line (set_line e (p ++ c :: t))) (e_col (set_line e (p ++ c :: t)) + 1) (e_col (set_line e (p ++ c :: t)) + 1)) in E.
    assert (e2 = e') as <- by congruence. destruct (Nat.ltb_spec (length p) (length p + length t)) as [M|M].
    + assert (RCurrentLine = r /\ [] = ops) as [<- <-] by (cbn [is_none] in E; rewrite andb_false_r in E; split; congruence).
      eapply pending_line; [repeat split|reflexivity|reflexivity].
    + assert (t = []) as Et by (destruct t; [reflexivity|cbn [length] in M; lia]). cbn [is_none] in E. rewrite andb_true_r in E.
      assert (RNone = r) as <- by congruence. destruct (Nat.ltb_spec x (w - 1)) as [Q|Q].
      * assert ([EWrite [c]] = ops) as <- by congruence. cbn [acts fold_left]. apply write_pending; [repeat split|exact Et|unfold e2; rewrite Et; reflexivity|].
        intros _. cbn [length]. lia.
      * assert ([] = ops) as <- by congruence. intros [_ I]. exfalso. unfold e2 in I. cbn [with_pos set_line with_text e_vcol e_col] in I. lia.
  - apply Del, E.
  - rewrite La in E. eapply Still; [exact E| | | |]; try reflexivity; repeat split.
  - apply Del, E.
  - eapply Still; [exact E| | | |]; try reflexivity; repeat split.
  - eapply Still; [exact E| | | |]; try reflexivity; repeat split.
  - unfold home_key in E. rewrite La in E. eapply Still; [exact E| | | |]; try reflexivity; repeat split.
  - apply NL, E.
  - destruct (minus h 2); [|discriminate]. eapply Quiet; [|exact E]. apply Down.
  - destruct (minus h 2); [|discriminate]. eapply Quiet; [|exact E]. apply Up.
  - unfold tab_key in E. rewrite La, Ec, app_length, (firstn_p p t), (skipn_p p t) in E.
    set (n := (length p + indent_width) / indent_width * indent_width) in E. set (sp := repeat 32%N (n - length p)) in E.
    assert (Ln : length p <= n).
    { unfold n, indent_width. pose proof (Nat.div_mod (length p) 4). pose proof (Nat.mod_upper_bound (length p) 4).
      replace (length p + 4) with (length p + 1 * 4) by lia. rewrite Nat.div_add by lia. lia. }
    assert (Lsp : length sp = n - length p) by apply repeat_length.
    assert (Ee : e' = with_pos (set_line e (p ++ sp ++ t)) (e_line e) n n) by (cbn [set_line with_text e_line] in *; congruence).
    destruct (Nat.ltb_spec (length p) (length p + length t)) as [M|M]; cbn [is_none] in E.
    + assert (RCurrentLine = r /\ [] = ops) as [<- <-] by (split; congruence).
      eapply pending_line; [rewrite Ee; repeat split|rewrite Ee; reflexivity|rewrite Ee; reflexivity].
    + assert (t = []) as Et by (destruct t; [reflexivity|cbn [length] in M; lia]).
      assert (RNone = r /\ [EWrite sp] = ops) as [<- <-] by (split; congruence). cbn [acts fold_left].
      apply write_pending; [rewrite Ee; repeat split|exact Et|rewrite Ee, Et, app_nil_r; reflexivity|].
      intros [_ I]. rewrite Ee in I. cbn [with_pos set_line with_text e_vcol e_col] in I. lia.
  - eapply Still; [exact E| | | |]; try reflexivity; repeat split.
Qed.
End Press.
End Screen.

(** ** The loop *)

Section Loop.
Variables (w h : nat).
Hypothesis W : 1 <= w.
Hypothesis H : 2 <= h.

Definition editor_of (res : editing) : editor := match res with Waiting e => e | Left e _ => e end.

Lemma loop_screen keys : forall e b r s res ops, edit_loop w h keys e r = Some (res, ops) ->
  holds e b -> no_wide_spaces (whole b) -> Forall plain_key keys -> pending w h e r s ->
  ready w h (editor_of res) (acts w h ops s).
Proof.
  induction keys as [|k keys IH]; intros e b r s res ops E Hb NW PK P; cbn [edit_loop] in E;
    destruct (before_key_spec w h e r W H (holds_line e b Hb)) as (e1 & r1 & ops1 & E1 & D1 & Sm & I1 & C1); rewrite E1 in E;
    assert (Y : ready w h e1 (acts w h (ops1 ++ [ELocate (e_col e1 - e_vcol e1) (e_line e1 - e_vline e1); EShow; ESyncNow]) s))
      by (apply draw_ready with r1; try assumption; destruct C1 as [->|[-> ->]]; [exact I|exact P]);
    set (ops2 := ops1 ++ [ELocate (e_col e1 - e_vcol e1) (e_line e1 - e_vline e1); EShow; ESyncNow]) in *.
  - assert (Waiting e1 = res /\ ops2 = ops) as [<- <-] by (split; congruence). exact Y.
  - destruct (leaves k); [assert (Left e1 keys = res /\ ops2 = ops) as [<- <-] by (split; congruence); exact Y|].
    pose proof (holds_same _ _ _ Sm Hb) as Hb1. inversion PK as [|? ? PK1 PK2]; subst.
    destruct (press_holds w h W H (e_col e1 - e_vcol e1) k e1 b Hb1 PK1 NW) as (e2 & r2 & ops3 & E2 & H2 & _). rewrite E2 in E.
    destruct (edit_loop w h keys e2 r2) as [[res' ops4]|] eqn:E3; [|discriminate].
    assert (res' = res /\ ops2 ++ ops3 ++ ops4 = ops) as [<- <-] by (split; congruence).
    rewrite !acts_app. apply (IH e2 _ r2 _ res' ops4 E3 H2 (no_wide_key h k b PK1 NW) PK2).
    destruct (holds_zip e1 b Hb1) as (A & p & t & B & Z). eapply press_pending; try eassumption. reflexivity.
Qed.

(** ** The status line *)

Lemma decimal_digits f n c : In c (decimal f n) -> (48 <= c < 58)%N.
Proof.
  revert n. induction f as [|f IH]; intros n; cbn [decimal]; [intros []|]. destruct (N.ltb_spec n 10).
  - intros [<-|[]]. lia.
  - intros I. apply in_app_iff in I. destruct I as [I|[<-|[]]]; [exact (IH _ I)|]. pose proof (N.mod_upper_bound n 10). lia.
Qed.
Definition shown_ascii (t : ustr) : Prop := forall c, In c t -> (32 <= c < 127)%N.
Lemma ascii_app a b : shown_ascii (a ++ b) <-> shown_ascii a /\ shown_ascii b.
Proof.
  unfold shown_ascii. split.
  - intros A. split; intros c C; apply A, in_app_iff; tauto.
  - intros [A B] c C. apply in_app_iff in C. destruct C; auto.
Qed.
Lemma number_ascii n : shown_ascii (number n).
Proof.
  unfold number, to_string. destruct (Z.ltb_spec (Z.of_nat n) 0); [lia|]. intros c C. apply decimal_digits in C. lia.
Qed.
Lemma spaces_ascii n : shown_ascii (repeat 32%N n).
Proof. intros c C. apply repeat_spec in C. lia. Qed.
Ltac literal := let c := fresh in let C := fresh in intros c C; vm_compute in C; repeat (destruct C as [<-|C]; [split; [discriminate|reflexivity]|]); destruct C.

Lemma ascii_bytes t : shown_ascii t -> utf8_len t = length t.
Proof. intros A. apply (utf8_ascii w h W H). intros c C. specialize (A c C). lia. Qed.

Lemma status_gen nm dm ln co : shown_ascii nm -> shown_ascii dm -> shown_ascii ln -> shown_ascii co ->
  let long := u " | " ++ nm ++ dm ++ u " | Ln " ++ ln ++ u ", Col " ++ co ++ u " " in
  let short := u " " ++ ln ++ u ":" ++ co ++ u " " in
  let status :=
    if w <=? utf8_len keys_summary + utf8_len long then
      (if utf8_len short <? w then repeat 32%N (w - utf8_len short) else []) ++ short
    else
      keys_summary ++ repeat 32%N (w - utf8_len long - utf8_len keys_summary) ++ long in
  let cut := if w <? utf8_len status then firstn w status else status in
  cut = (if length (u " ESC Exit ") + length long <? w
         then u " ESC Exit " ++ repeat 32%N (w - length (u " ESC Exit ") - length long) ++ long
         else firstn w (repeat 32%N (w - length short) ++ short)) /\
  length cut = w /\ shown_ascii cut.
Proof.
  intros Anm Adm Aln Aco. cbv zeta.
  set (long := u " | " ++ nm ++ dm ++ u " | Ln " ++ ln ++ u ", Col " ++ co ++ u " "). set (short := u " " ++ ln ++ u ":" ++ co ++ u " ").
  assert (Al : shown_ascii long) by (unfold long; repeat (apply ascii_app; split); try assumption; literal).
  assert (Ash : shown_ascii short) by (unfold short; repeat (apply ascii_app; split); try assumption; literal).
  assert (Ak : shown_ascii keys_summary) by literal.
  rewrite (ascii_bytes long Al), (ascii_bytes short Ash), (ascii_bytes _ Ak). change keys_summary with (u " ESC Exit ") in *.
  set (K := u " ESC Exit ") in *. destruct (Nat.leb_spec w (length K + length long)) as [L|L]; destruct (Nat.ltb_spec (length K + length long) w) as [M|M]; try lia.
  - assert (E : (if length short <? w then repeat 32%N (w - length short) else []) ++ short = repeat 32%N (w - length short) ++ short).
    { destruct (Nat.ltb_spec (length short) w); [reflexivity|]. replace (w - length short) with 0 by lia. reflexivity. }
    rewrite E. set (st := repeat 32%N (w - length short) ++ short).
    assert (Ast : shown_ascii st) by (apply ascii_app; split; [apply spaces_ascii|exact Ash]). rewrite (ascii_bytes _ Ast).
    assert (Lst : w <= length st) by (unfold st; rewrite app_length, repeat_length; lia).
    assert (E2 : (if w <? length st then firstn w st else st) = firstn w st).
    { destruct (Nat.ltb_spec w (length st)); [reflexivity|]. symmetry. apply firstn_all2. lia. }
    rewrite E2. split; [reflexivity|]. split; [rewrite firstn_length; lia|]. intros c C. apply Ast. rewrite <- (firstn_skipn w st). apply in_app_iff. left. exact C.
  - set (st := K ++ repeat 32%N (w - length long - length K) ++ long).
    assert (Ast : shown_ascii st) by (apply ascii_app; split; [exact Ak|apply ascii_app; split; [apply spaces_ascii|exact Al]]). rewrite (ascii_bytes _ Ast).
    assert (Lst : length st = w) by (unfold st; rewrite !app_length, repeat_length; lia). rewrite Lst, Nat.ltb_irrefl.
    split; [|split; [exact Lst|exact Ast]]. unfold st. replace (w - length long - length K) with (w - length K - length long) by lia. reflexivity.
Qed.

Lemma status_spec e b : holds e b -> ascii_name (e_name e) ->
  status_text w e = status_line w (e_name e) (e_dirty e) b /\ length (status_text w e) = w /\ shown_ascii (status_text w e).
Proof.
  intros Hb As. unfold status_text, status_line.
  replace (to_string (Z.of_nat (row b) + 1)) with (number (e_line e + 1)) by (unfold number; rewrite (h_row _ _ Hb), Nat2Z.inj_add; reflexivity).
  replace (to_string (Z.of_nat (column b) + 1)) with (number (e_col e + 1)) by (unfold number; rewrite (h_column _ _ Hb), Nat2Z.inj_add; reflexivity).
  apply status_gen; try apply number_ascii.
  - destruct (e_name e); [exact As|literal].
  - destruct (e_dirty e); [literal|intros c []].
Qed.

(** ** The window *)

Lemma shown_echar e b l c : holds e b -> echar (e_content e) l c = shown_char (whole b) l c.
Proof.
  intros Hb. destruct (holds_zip e b Hb) as (A & p & t & B & Z). unfold echar, shown_char. rewrite (zip_newlines _ _ _ _ _ _ Z).
  assert (FC : all_flat (e_content e)) by exact (h_lines _ _ Hb).
  destruct (nth_error (e_content e) l) as [L|] eqn:E.
  - destruct (nth_error_split _ _ E) as (A' & B' & EC & <-). rewrite EC in FC. apply all_flat_app in FC. destruct FC as [FA FC]. apply all_flat_cons in FC. destruct FC as [FL FB].
    assert (Wh : whole b = enders A' ++ L ++ tails B').
    { apply (app_inv_tail [10%N]). rewrite <- !app_assoc, <- enders_tails, <- enders_app, <- EC, <- text_enders. symmetry. apply (h_text e b Hb). }
    pose proof (zip_length _ _ _ _ _ _ Z) as Le. rewrite EC, app_length in Le. cbn [length] in Le.
    destruct (Nat.leb_spec (length A') (length A + length B)); [|lia].
    rewrite Wh, line_start_enders by exact FA. replace (skipn (length (enders A')) (enders A' ++ L ++ tails B')) with (L ++ tails B').
    2: { rewrite skipn_app, skipn_all, Nat.sub_diag. reflexivity. }
    rewrite first_line_app, first_line_tails, app_nil_r by exact FL. reflexivity.
  - apply nth_error_None in E. pose proof (zip_length _ _ _ _ _ _ Z) as Le. change (@length (list N) (e_content e)) with (@length ustr (e_content e)) in E.
    destruct (Nat.leb_spec l (length A + length B)); [lia|reflexivity].
Qed.

Lemma printable_ascii t : shown_ascii t -> printable t = t.
Proof.
  intros A. rewrite printable_map. rewrite <- (map_id t) at 2. apply map_ext_in. intros c C. specialize (A c C). unfold clean.
  destruct (N.ltb_spec c 32), (N.eqb_spec c 127), (N.leb_spec 128 c); try lia. reflexivity.
Qed.

Lemma ready_shows e b s : holds e b -> ascii_name (e_name e) -> ready w h e s -> shows w h (e_name e) (e_dirty e) b s.
Proof.
  intros Hb As Y. exists (e_vline e), (e_vcol e). destruct Y as [R S X Yy O C [J1 J2]]. rewrite <- (h_row _ _ Hb), <- (h_column _ _ Hb).
  split; [lia|]. split; [lia|]. split; [exact X|]. split; [exact Yy|]. split; [exact O|]. destruct (status_spec e b Hb As) as (E & L & A). split.
  - intros c r Cw Rr. rewrite (R c r Cw Rr I). rewrite (shown_echar e b) by exact Hb. reflexivity.
  - intros c Cw. rewrite (S L c Cw), E. rewrite E in A, L. rewrite (printable_ascii _ A). f_equal. apply nth_indep. rewrite L. exact Cw.
Qed.
End Loop.

(** ** The alternate screen *)

Definition stays (o : eop) : Prop := match o with EEnterAlt | ELeaveAlt | ESync _ => False | _ => True end.

Lemma stays_saved w h o s : stays o -> g_saved (act w h s o) = g_saved s.
Proof.
  assert (G : forall s c, g_saved (type_glyph w h s c) = g_saved s).
  { intros s0 c. unfold type_glyph, new_row. destruct (_ <? _); [reflexivity|]. destruct (_ <? _); reflexivity. }
  assert (T : forall t s, g_saved (fold_left (type_glyph w h) t s) = g_saved s).
  { induction t as [|c t IH]; intros s0; [reflexivity|]. cbn [fold_left]. rewrite IH. apply G. }
  destruct o as [| |fg bg|[]|x y|t|t| |en| |]; intros St; cbn [act]; try reflexivity; try contradiction.
  - destruct (_ <? _); reflexivity.
  - unfold type_glyphs. rewrite <- (T (printable t) s). unfold new_row. destruct (_ <? _); reflexivity.
  - apply T.
Qed.
Lemma all_stay_saved w h ops : forall s, Forall stays ops -> g_saved (acts w h ops s) = g_saved s.
Proof.
  induction ops as [|o ops IH]; intros s F; [reflexivity|]. inversion F; subst. change (g_saved (acts w h ops (act w h s o)) = g_saved s).
  rewrite IH by assumption. apply stays_saved. assumption.
Qed.

Ltac stay := repeat (first [apply Forall_cons; [exact Logic.I|] | apply Forall_nil | apply Forall_app; split]).

Lemma status_stays w h e ops : refresh_status w h e = Some ops -> Forall stays ops.
Proof. unfold refresh_status. destruct h; [discriminate|]. intros E. injection E as <-. stay. Qed.
Lemma draw_stays w h e r ops : draw w h e r = Some ops -> Forall stays ops.
Proof.
  unfold draw. destruct r.
  - destruct (refresh_status w h e) as [a|] eqn:E; [|discriminate]. cbn [option_map]. intros Q. injection Q as <-. pose proof (status_stays _ _ _ _ E). stay. assumption.
  - destruct (refresh_status w h e) as [a|] eqn:E; [|discriminate]. unfold refresh_current_line. destruct (minus _ _); [|discriminate]. destruct (line_at _ _); [|discriminate].
    intros Q. injection Q as <-. pose proof (status_stays _ _ _ _ E). stay; [assumption|]. destruct (_ <? _); stay.
  - unfold refresh_all. destruct (refresh_status w h e) as [a|] eqn:E; [|discriminate]. cbn [option_map]. intros Q. injection Q as <-. pose proof (status_stays _ _ _ _ E).
    stay; [assumption|]. apply Forall_forall. intros o I. apply in_map_iff in I. destruct I as (l & <- & _). unfold print_row. destruct (_ <? _); exact Logic.I.
Qed.
Lemma before_key_stays w h e r e' p ops : before_key w h e r = Some (e', p, ops) -> Forall stays ops.
Proof.
  unfold before_key. destruct (adjust_line h e r) as [[e1 r1]|]; [|discriminate]. destruct (adjust_col w e1 r1) as [[e2 r2]|]; [|discriminate].
  destruct (draw w h e2 r2) as [a|] eqn:D; [|discriminate]. destruct (minus _ _); [|discriminate]. destruct (minus _ _); [|discriminate].
  intros Q. injection Q as _ _ <-. apply draw_stays in D. stay. assumption.
Qed.
Lemma quietly_stays m e' r ops : quietly m = Some (e', r, ops) -> Forall stays ops.
Proof. destruct m; cbn [quietly]; [|discriminate]. intros Q. injection Q as _ _ <-. stay. Qed.
Lemma repeat_stays n : Forall stays (repeat (EClear PreviousChar) n).
Proof. apply Forall_forall. intros o I. apply repeat_spec in I. subst o. exact Logic.I. Qed.
Lemma press_stays w h x k e e' r ops : press w h x k e = Some (e', r, ops) -> Forall stays ops.
Proof.
  intros E. destruct k; cbn [press] in E; try (exact (quietly_stays _ _ _ _ E));
    unfold backspace, newline_key, char_key, delete_key, home_key, tab_key in E;
    repeat match type of E with
    | None = _ => discriminate E
    | quietly _ = _ => exact (quietly_stays _ _ _ _ E)
    | Some _ = Some _ => injection E as _ _ <-
    | (if ?c then _ else _) = _ => destruct c
    | (let line := remove_at _ _ in if ?c then _ else _) = _ => destruct c
    | match ?m with _ => _ end = _ => destruct m
    end; try (destruct (_ && _)); try (destruct (is_none _)); stay; apply repeat_stays.
Qed.
Lemma loop_stays w h keys : forall e r res ops, edit_loop w h keys e r = Some (res, ops) -> Forall stays ops.
Proof.
  induction keys as [|k keys IH]; intros e r res ops E; cbn [edit_loop] in E; destruct (before_key w h e r) as [[[e1 [x y]] a]|] eqn:B; try discriminate;
    apply before_key_stays in B.
  - injection E as <- <-. exact B.
  - destruct (leaves k); [injection E as <- <-; exact B|]. destruct (press w h x k e1) as [[[e2 r2] c]|] eqn:P; [|discriminate].
    apply press_stays in P. destruct (edit_loop w h keys e2 r2) as [[res3 d]|] eqn:L; [|discriminate]. apply IH in L. injection E as <- <-. stay; assumption.
Qed.

(** More keys, more operations. *)
Lemma loop_more w h keys more : forall e r e1 ops1 res ops, edit_loop w h keys e r = Some (Waiting e1, ops1) ->
  edit_loop w h (keys ++ more) e r = Some (res, ops) -> exists rest, ops = ops1 ++ rest.
Proof.
  induction keys as [|k keys IH]; intros e r e1 ops1 res ops E1 E; cbn [edit_loop app] in *.
  - destruct more as [|k more]; cbn [edit_loop] in E.
    + rewrite E1 in E. injection E as <- <-. exists []. rewrite app_nil_r. reflexivity.
    + destruct (before_key w h e r) as [[[e2 [x y]] a]|]; [|discriminate]. injection E1 as <- <-. destruct (leaves k).
      * injection E as <- <-. exists []. rewrite app_nil_r. reflexivity.
      * destruct (press w h x k e2) as [[[e3 r3] c]|]; [|discriminate]. destruct (edit_loop w h more e3 r3) as [[res3 d]|]; [|discriminate].
        injection E as <- <-. eexists. reflexivity.
  - destruct (before_key w h e r) as [[[e2 [x y]] a]|]; [|discriminate]. destruct (leaves k); [discriminate|].
    destruct (press w h x k e2) as [[[e3 r3] c]|]; [|discriminate]. destruct (edit_loop w h keys e3 r3) as [[res3 d]|] eqn:L; [|discriminate].
    destruct (edit_loop w h (keys ++ more) e3 r3) as [[res4 d4]|] eqn:L4; [|discriminate]. injection E1 as -> <-. injection E as <- <-.
    destruct (IH _ _ _ _ _ _ L L4) as (rest & ->). exists rest. rewrite !app_assoc. reflexivity.
Qed.
