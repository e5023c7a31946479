(** From the cells of a screen to the pixels of a graphical console. *)
From Coq Require Import String.
From Verif Require Import Base Colors_Model Draw_Model Draw_Spec Lcd_Model Lcd_Spec Strings_Model Readline_Model Gfx_Model Gfx_Spec Gfx_Proofs
  Editor_Model Editor_Spec Editor_Proofs Editor_Screen.
Local Open Scope string_scope.
Local Open Scope nat_scope.
Local Open Scope list_scope.

Section Pixels.
Variables (v0 : setup) (z : sizes) (w h : nat).
Hypothesis Gs : good_sizes v0 z.
Hypothesis Ew : Z.of_nat w = cols z.
Hypothesis Eh : Z.of_nat h = rows z.
Hypothesis Bs : blank_space v0.

Let W : 1 <= w.
Proof. pose proof (cols_pos _ _ Gs). lia. Qed.
Let H : 2 <= h.
Proof. pose proof (rows_pos _ _ Gs). lia. Qed.

Definition cells_look (cells : nat -> nat -> glyph) (P : picture) : Prop :=
  forall c r p, c < w -> r < h -> in_area (cell z (Z.of_nat c) (Z.of_nat r)) p = true -> P p = glyph_pixel v0 z (cells c r) c r p.

Definition ink (c : color) : px := encode v0 (rgb_of match fst c with Some i => i | None => def_fg v0 end).
Definition under (c : color) : px := encode v0 (rgb_of match snd c with Some i => i | None => def_bg v0 end).

Lemma blank_pixel c x y p : glyph_pixel v0 z (32%N, c) x y p = under c.
Proof. unfold glyph_pixel. cbn [fst snd]. rewrite Bs. reflexivity. Qed.

(** A page with text of the screen. *)
Record page_look (s : screen) (g : page) : Prop := mkPageLook {
  l_cells : cells_look (g_cell s) (fst (fst g));
  l_x : snd (fst g) = Z.of_nat (g_x s);
  l_y : snd g = Z.of_nat (g_y s);
  l_in : g_x s <= w /\ g_y s < h
}.

Lemma cell_iff c r p : in_area (cell z c r) p = true <-> (c * s_gw z <= fst p < (c + 1) * s_gw z /\ r * s_gh z <= snd p < (r + 1) * s_gh z)%Z.
Proof.
  unfold in_area, cell, box. cbn [fst snd]. rewrite !andb_true_iff, !Z.leb_le. lia.
Qed.
Lemma cell_same c r c' r' p : in_area (cell z (Z.of_nat c) (Z.of_nat r)) p = true ->
  in_area (cell z (Z.of_nat c') (Z.of_nat r')) p = ((c =? c') && (r =? r')).
Proof.
  intros I. pose proof (gs_gw _ _ Gs). pose proof (gs_gh _ _ Gs). destruct (in_area (cell z (Z.of_nat c') (Z.of_nat r')) p) eqn:E.
  - destruct (cell_disjoint z _ _ _ _ p ltac:(lia) ltac:(lia) I E) as [Q1 Q2]. apply Nat2Z.inj in Q1, Q2. subst. rewrite !Nat.eqb_refl. reflexivity.
  - destruct (Nat.eqb_spec c c') as [->|]; [|reflexivity]. destruct (Nat.eqb_spec r r') as [->|]; [|reflexivity]. congruence.
Qed.

Lemma new_row_look s P x y : page_look s (P, x, y) -> page_look (new_row h s) (next_line z (under (g_color s)) (P, x, y)).
Proof.
  intros [C X Y [I1 I2]]. cbn [fst snd] in *. unfold new_row, next_line. subst x y.
  destruct (Nat.ltb_spec (g_y s + 1) h), (Z.ltb_spec (Z.of_nat (g_y s) + 1) (rows z)); try lia.
  - constructor; cbn [moved g_cell g_x g_y fst snd]; [exact C|reflexivity|lia|lia].
  - constructor; cbn [moved g_cell g_x g_y fst snd]; [|reflexivity|lia|lia].
    intros c r p Cw R A. apply cell_iff in A. pose proof (gs_gh _ _ Gs).
    destruct (Nat.ltb_spec r (h - 1)), (Z.ltb_spec (snd p) ((rows z - 1) * s_gh z)); try nia.
    + rewrite (C c (r + 1) (fst p, (snd p + s_gh z)%Z)) by (try lia; apply cell_iff; cbn [fst snd]; lia).
      unfold glyph_pixel. cbn [fst snd]. replace (snd p + s_gh z - Z.of_nat (r + 1) * s_gh z)%Z with (snd p - Z.of_nat r * s_gh z)%Z by lia. reflexivity.
    + symmetry. apply blank_pixel.
Qed.

Lemma put_look s P x y c : page_look s (P, x, y) -> g_x s < w ->
  page_look (moved s (put_at (g_x s) (g_y s) (c, g_color s) (g_cell s)) (g_x s + 1) (g_y s))
    (put_char z (glyphs v0) (ink (g_color s)) (under (g_color s)) c (P, x, y)).
Proof.
  intros [C X Y [I1 I2]] L. cbn [fst snd] in *. subst x y. unfold put_char.
  constructor; cbn [moved g_cell g_x g_y fst snd]; [|lia|lia|lia]. intros c' r p Cw R A. rewrite (cell_same _ _ _ _ _ A). unfold put_at.
  destruct (Nat.eqb_spec c' (g_x s)) as [->|]; [|cbn [andb]; apply C; assumption].
  destruct (Nat.eqb_spec r (g_y s)) as [->|]; [|cbn [andb]; apply C; assumption]. reflexivity.
Qed.

Lemma glyph_look s g c : page_look s g -> page_look (type_glyph w h s c) (type_char z (glyphs v0) (ink (g_color s)) (under (g_color s)) g c).
Proof.
  destruct g as [[P x] y]. intros L. unfold type_glyph, type_char. cbn [fst snd].
  destruct L as [C X Y [I1 I2]] eqn:EL. cbn [fst snd] in X. subst x. clear EL.
  destruct (Nat.ltb_spec (g_x s) w), (Z.ltb_spec (Z.of_nat (g_x s)) (cols z)); try lia.
  - apply put_look; assumption.
  - pose proof (new_row_look s P _ y L) as L2. destruct (next_line z (under (g_color s)) (P, Z.of_nat (g_x s), y)) as [[P2 x2] y2].
    assert (E : g_color (new_row h s) = g_color s) by (unfold new_row; destruct (_ <? _); reflexivity).
    assert (Lx : g_x (new_row h s) < w) by (unfold new_row; destruct (_ <? _); cbn [moved g_x]; lia).
    pose proof (put_look _ _ _ _ c L2 Lx) as L3. rewrite E in L3 at 2 3. exact L3.
Qed.

Lemma glyph_color s c : g_color (type_glyph w h s c) = g_color s /\ g_on (type_glyph w h s c) = g_on s.
Proof. unfold type_glyph, new_row. destruct (_ <? _); [split; reflexivity|]. destruct (_ <? _); split; reflexivity. Qed.

Lemma glyphs_look t : forall s g, page_look s g ->
  page_look (fold_left (type_glyph w h) t s) (type_text z (glyphs v0) (ink (g_color s)) (under (g_color s)) t g) /\
  g_color (fold_left (type_glyph w h) t s) = g_color s /\ g_on (fold_left (type_glyph w h) t s) = g_on s.
Proof.
  unfold type_text. induction t as [|c t IH]; intros s g L; cbn [fold_left]; [repeat split; apply L|].
  destruct (glyph_color s c) as [E1 E2]. pose proof (IH _ _ (glyph_look s g c L)) as (A & B & C). rewrite E1 in *. rewrite E2 in *.
  split; [exact A|]. split; [exact B|exact C].
Qed.

(** A console that looks like a screen. *)
Record looks (s : screen) (v : view) : Prop := mkLooks {
  k_page : page_look s (page_of v);
  k_on : v_on v = g_on s;
  k_color : (v_fg v, v_bg v) = g_color s
}.

Lemma looks_ink s v : (v_fg v, v_bg v) = g_color s -> fg_of v0 v = ink (g_color s) /\ bg_of v0 v = under (g_color s).
Proof. intros <-. split; reflexivity. Qed.

Lemma show_looks s v g : page_look s g -> v_on v = g_on s -> (v_fg v, v_bg v) = g_color s -> looks s (show v0 z v g).
Proof.
  destruct g as [[P x] y]. intros L O C. unfold show. constructor; cbn [v_on v_fg v_bg]; [|exact O|exact C]. exact L.
Qed.

(** Operations without panics on the screen: none of them clears characters before the first column with the
    cursor visible, or puts the cursor outside the screen.  In displays without pixels after the last column, a
    visible cursor is never after it. *)
Definition tight : bool := (cols z * s_gw z =? s_w z)%Z.
Definition ok (s : screen) (o : eop) : Prop :=
  (tight = true -> g_on (act w h s o) = true -> g_x (act w h s o) < w) /\
  match o with
  | EClear PreviousChar => g_on s = true -> 0 < g_x s
  | EClear UntilNewLine => tight = true -> g_x s < w
  | ELocate x y => x < w /\ y < h
  | EEnterAlt | ELeaveAlt => False
  | _ => True
  end.
Fixpoint all_ok (ops : list eop) (s : screen) : Prop :=
  match ops with
  | [] => True
  | o :: ops => ok s o /\ all_ok ops (act w h s o)
  end.

Lemma fits x : x <= w -> (tight = true -> x < w) -> (Z.of_nat x * s_gw z < s_w z)%Z.
Proof.
  intros X T. pose proof (cols_pos _ _ Gs) as [_ C]. pose proof (gs_gw _ _ Gs). unfold tight in T.
  destruct (Z.eqb_spec (cols z * s_gw z) (s_w z)); [specialize (T eq_refl)|]; nia.
Qed.

Lemma act_looks s v o : looks s v -> ok s o ->
  looks (act w h s o) (effect_on v0 z (on_console o) v) /\ fine v0 z (on_console o) v.
Proof.
  intros L [T K]. assert (Main : looks (act w h s o) (effect_on v0 z (on_console o) v)).
  { destruct L as [[C X Y [I1 I2]] O Co]. cbn [page_of fst snd] in *. destruct (looks_ink s v Co) as [F B].
    assert (PL : page_look s (page_of v)) by (constructor; cbn [page_of fst snd]; [exact C|exact X|exact Y|split; assumption]).
    destruct o as [| |fg bg|how|x y|t|t| |en| |]; cbn [act on_console effect_on] in *; try contradiction.
    - constructor; [constructor; cbn; try assumption; split; assumption|reflexivity|exact Co].
    - destruct (v_on v) eqn:On.
      + constructor; [constructor; cbn; try assumption; split; assumption|exact On|exact Co].
      + apply show_looks; [|reflexivity|exact Co]. constructor; cbn; try assumption. split; assumption.
    - constructor; [constructor; cbn; try assumption; split; assumption|exact O|reflexivity].
    - destruct how.
      + apply show_looks; [|exact O|exact Co]. rewrite B. constructor; cbn [moved g_cell g_x g_y fst snd]; [|reflexivity|reflexivity|lia].
        intros c r p _ _ _. symmetry. apply blank_pixel.
      + apply show_looks; [|exact O|exact Co]. rewrite B, Y. constructor; cbn [moved g_cell g_x g_y fst snd]; [|reflexivity|reflexivity|lia].
        intros c r p Cw R A. pose proof A as A2. apply cell_iff in A2. unfold paint. pose proof (cols_pos _ _ Gs) as [_ Cp]. pose proof (gs_gw _ _ Gs). pose proof (gs_gh _ _ Gs).
        destruct (in_area (box (0, Z.of_nat (g_y s) * s_gh z)%Z (s_w z) (s_gh z)) p) eqn:E.
        * unfold in_area, box in E. cbn [fst snd] in E. rewrite !andb_true_iff, !Z.leb_le in E.
          destruct (Nat.eqb_spec r (g_y s)); [symmetry; apply blank_pixel|]. exfalso. nia.
        * destruct (Nat.eqb_spec r (g_y s)) as [->|]; [|apply C; assumption]. exfalso. assert (E2 : in_area (box (0, Z.of_nat (g_y s) * s_gh z)%Z (s_w z) (s_gh z)) p = true); [|congruence].
          unfold in_area, box. cbn [fst snd]. rewrite !andb_true_iff, !Z.leb_le. nia.
      + rewrite X. destruct (Z.ltb_spec 0 (Z.of_nat (g_x s))), (Nat.ltb_spec 0 (g_x s)); try lia.
        * apply show_looks; [|exact O|exact Co]. rewrite B, Y. constructor; cbn [moved g_cell g_x g_y fst snd]; [|lia|reflexivity|lia].
          intros c r p Cw R A. unfold paint. replace (Z.of_nat (g_x s) - 1)%Z with (Z.of_nat (g_x s - 1)) by lia. rewrite (cell_same _ _ _ _ _ A). unfold put_at.
          destruct ((c =? g_x s - 1) && (r =? g_y s)); [symmetry; apply blank_pixel|apply C; assumption].
        * constructor; [constructor; cbn; try assumption; split; assumption|exact O|exact Co].
      + apply show_looks; [|exact O|exact Co]. rewrite B, X, Y. constructor; cbn [moved g_cell g_x g_y fst snd]; [|reflexivity|reflexivity|lia].
        intros c r p Cw R A. pose proof A as A2. apply cell_iff in A2. unfold paint. pose proof (cols_pos _ _ Gs) as [_ Cp]. pose proof (gs_gw _ _ Gs). pose proof (gs_gh _ _ Gs).
        destruct (in_area (box (Z.of_nat (g_x s) * s_gw z, Z.of_nat (g_y s) * s_gh z)%Z (s_w z - Z.of_nat (g_x s) * s_gw z) (s_gh z)) p) eqn:E.
        * unfold in_area, box in E. cbn [fst snd] in E. rewrite !andb_true_iff, !Z.leb_le in E.
          destruct (Nat.leb_spec (g_x s) c), (Nat.eqb_spec r (g_y s)); cbn [andb]; try (symmetry; apply blank_pixel); exfalso; nia.
        * destruct (Nat.leb_spec (g_x s) c), (Nat.eqb_spec r (g_y s)); cbn [andb]; try (apply C; assumption).
          exfalso. subst r. assert (E2 : in_area (box (Z.of_nat (g_x s) * s_gw z, Z.of_nat (g_y s) * s_gh z)%Z (s_w z - Z.of_nat (g_x s) * s_gw z) (s_gh z)) p = true); [|congruence].
          unfold in_area, box. cbn [fst snd]. rewrite !andb_true_iff, !Z.leb_le. nia.
    - apply show_looks; [|exact O|exact Co]. constructor; cbn [moved g_cell g_x g_y fst snd]; [exact C|reflexivity|reflexivity|lia].
    - rewrite F, B. destruct (glyphs_look (printable t) s _ PL) as (P1 & P2 & P3). unfold type_glyphs.
      set (s' := fold_left (type_glyph w h) (printable t) s) in *. set (g' := type_text _ _ _ _ _ _) in *. destruct g' as [[P x] y].
      assert (N1 : g_color (new_row h s') = g_color s' /\ g_on (new_row h s') = g_on s') by (unfold new_row; destruct (_ <? _); split; reflexivity).
      destruct N1 as [N1 N2]. apply show_looks; [rewrite <- P2; apply new_row_look, P1|congruence|congruence].
    - rewrite F, B. destruct (glyphs_look (printable t) s _ PL) as (P1 & P2 & P3). unfold type_glyphs.
      apply show_looks; [exact P1|congruence|congruence].
    - constructor; [exact PL|exact O|exact Co].
    - constructor; [exact PL|exact O|exact Co]. }
  split; [exact Main|]. pose proof L as L0. destruct L as [[C X Y [I1 I2]] O Co]. destruct Main as [[MC MX MY [MI1 MI2]] MO MCo]. cbn [page_of fst snd] in *.
  split.
  - intros On. rewrite MX. apply fits; [exact MI1|]. intros Tt. apply T; [exact Tt|congruence].
  - destruct o as [| |fg bg|how|x y|t|t| |en| |]; cbn [on_console] in *; try exact I; try contradiction.
    + destruct how; try exact I; [rewrite X, O; lia|]. rewrite X. apply fits; [exact I1|exact K].
    + lia.
Qed.

Lemma acts_look ops : forall s v, looks s v -> all_ok ops s ->
  all_fine v0 z (map on_console ops) v /\ looks (acts w h ops s) (fold_left (fun v o => effect_on v0 z o v) (map on_console ops) v).
Proof.
  induction ops as [|o ops IH]; intros s v L K; cbn [map all_fine all_ok fold_left acts] in *; [split; [exact I|exact L]|].
  destruct K as [K1 K2]. destruct (act_looks s v o L K1) as [L1 F1]. destruct (IH _ _ L1 K2) as [F2 L2]. split; [split; assumption|exact L2].
Qed.

Lemma all_ok_app a b s : all_ok (a ++ b) s <-> all_ok a s /\ all_ok b (acts w h a s).
Proof.
  revert s. induction a as [|o a IH]; intros s; cbn [app all_ok]; [split; [intros A; split; [exact I|exact A]|intros [_ A]; exact A]|].
  rewrite IH. change (acts w h (o :: a) s) with (acts w h a (act w h s o)). tauto.
Qed.

(** Operations with the cursor hidden, that keep it so. *)
Definition veiled (o : eop) : Prop :=
  match o with
  | EColor _ _ | EClear All | EClear CurrentLine | EClear PreviousChar | EPrint _ | EWrite _ => True
  | ELocate x y => x < w /\ y < h
  | _ => False
  end.
Lemma veiled_on s o : veiled o -> g_on (act w h s o) = g_on s.
Proof.
  assert (T : forall t s, g_on (fold_left (type_glyph w h) t s) = g_on s).
  { induction t as [|c t IH]; intros s0; [reflexivity|]. cbn [fold_left]. rewrite IH. apply glyph_color. }
  destruct o as [| |fg bg|[]|x y|t|t| |en| |]; intros V; cbn [act]; try reflexivity; try contradiction.
  - destruct (_ <? _); reflexivity.
  - unfold type_glyphs. rewrite <- (T (printable t) s). unfold new_row. destruct (_ <? _); reflexivity.
  - apply T.
Qed.
Lemma veiled_ok ops : forall s, g_on s = false -> Forall veiled ops -> all_ok ops s /\ g_on (acts w h ops s) = false.
Proof.
  induction ops as [|o ops IH]; intros s O F; [split; [exact I|exact O]|]. inversion F as [|? ? V F2]; subst.
  pose proof (veiled_on s o V) as E. rewrite O in E. destruct (IH _ E F2) as [A1 A2]. split; [|exact A2]. cbn [all_ok]. split; [|exact A1].
  split; [intros _ Q; congruence|]. destruct o as [| |fg bg|[]|x y|t|t| |en| |]; try exact I; try contradiction; [|exact V]. intros Q. congruence.
Qed.

Ltac veil := repeat (first [apply Forall_cons; [try exact I|] | apply Forall_nil | apply Forall_app; split]).
Lemma draw_veiled e r ops : draw w h e r = Some ops -> in_window w h e -> exists ops', ops = EHide :: ops' /\ Forall veiled ops'.
Proof.
  intros D [I1 I2].
  assert (Hs : refresh_status w h e = Some [ELocate 0 (h - 1); status_color; EWrite (status_text w e)]).
  { destruct h as [|h']; [lia|]. unfold refresh_status. replace (S h' - 1) with h' by lia. reflexivity. }
  destruct r; cbn [draw] in D; unfold refresh_current_line, refresh_all in D; rewrite Hs in D.
  - injection D as <-. eexists. split; [reflexivity|]. veil. split; lia.
  - unfold minus in D. destruct (Nat.ltb_spec (e_line e) (e_vline e)); [discriminate|]. destruct (line_at e (e_line e)) as [l|]; [|discriminate].
    injection D as <-. eexists. split; [reflexivity|]. veil; [split; lia|split; lia|]. destruct (_ <? _); veil.
  - injection D as <-. eexists. split; [reflexivity|]. veil; [split; lia|split; lia|].
    apply Forall_forall. intros o Io. apply in_map_iff in Io. destruct Io as (l & <- & _). unfold print_row. destruct (_ <? _); exact I.
Qed.

Lemma draw_ok e r ops s : draw w h e r = Some ops -> in_window w h e ->
  all_ok (ops ++ [ELocate (e_col e - e_vcol e) (e_line e - e_vline e); EShow; ESyncNow]) s /\ g_on (acts w h ops s) = false.
Proof.
  intros D [I1 I2]. destruct (draw_veiled e r ops D (conj I1 I2)) as (ops' & -> & V).
  destruct (veiled_ok ops' (act w h s EHide) eq_refl V) as [A1 A2]. split; [|exact A2].
  apply all_ok_app. split; [cbn [all_ok]; split; [split; [intros _ Q; discriminate Q|exact I]|exact A1]|].
  change (acts w h (EHide :: ops') s) with (acts w h ops' (act w h s EHide)). set (s1 := acts w h ops' _) in *.
  cbn [all_ok act moved g_on g_x]. unfold ok. cbn [act moved g_on g_x]. repeat split; try (intros; lia).
Qed.

Lemma type_x t s : g_x s + length t <= w -> g_x (type_glyphs w h t s) = g_x s + length t.
Proof. intros L. destruct (type_row w h W H t s L) as (X & _). exact X. Qed.

Lemma press_ok k e x e' r ops s : press w h x k e = Some (e', r, ops) -> x = e_col e - e_vcol e -> ready w h e s ->
  (tight = true -> k <> KTab) -> all_ok ops s.
Proof.
  intros E X Y NT. pose proof (y_window _ _ _ _ Y) as [J1 J2]. pose proof (y_x _ _ _ _ Y) as Yx. pose proof (y_on _ _ _ _ Y) as Yo.
  assert (Bk : forall n, all_ok (EHide :: repeat (EClear PreviousChar) n ++ [EShow]) s).
  { intros n. cbn [all_ok]. split; [split; [intros _ Q; discriminate Q|exact I]|]. apply all_ok_app.
    assert (V : Forall veiled (repeat (EClear PreviousChar) n)) by (apply Forall_forall; intros o Io; apply repeat_spec in Io; subst o; exact I).
    split; [apply veiled_ok; [reflexivity|exact V]|].
    assert (G : forall n s, g_x (acts w h (repeat (EClear PreviousChar) n) s) <= g_x s).
    { clear. induction n as [|n IH]; intros s; [apply le_n|]. cbn [repeat]. change (acts w h (EClear PreviousChar :: repeat (EClear PreviousChar) n) s) with (acts w h (repeat (EClear PreviousChar) n) (act w h s (EClear PreviousChar))).
      etransitivity; [apply IH|]. cbn [act]. destruct (0 <? g_x s); cbn [moved g_x]; lia. }
    cbn [all_ok]. split; [|exact I]. split; [|exact I]. intros _ _. cbn [act g_x]. pose proof (G n (act w h s EHide)) as G1. cbn [act g_x] in G1. lia. }
  assert (Dl : all_ok [EHide; EClear UntilNewLine; EShow] s).
  { cbn [all_ok]. unfold ok. cbn [act moved g_on g_x]. repeat split; try (intros; try discriminate; lia). }
  destruct k; cbn [press] in E; try (destruct (line_at e (e_line e)); [|discriminate]);
    unfold backspace, newline_key, char_key, delete_key, home_key, tab_key in E;
    repeat match type of E with
    | None = _ => discriminate E
    | quietly ?m = _ => destruct m; cbn [quietly] in E
    | Some _ = Some _ => injection E as _ _ <-
    | (if ?c then _ else _) = _ => destruct c
    | (let line := remove_at _ _ in if ?c then _ else _) = _ => destruct c
    | match ?m with _ => _ end = _ => destruct m eqn:?
    end; try exact I; try exact Dl.
  - destruct (_ && _); [apply Bk|exact I].
  - unfold minus in Heqo0. destruct (Nat.ltb_spec w 1); [discriminate|]. injection Heqo0 as <-.
    destruct (Nat.ltb_spec x (w - 1)) as [Lx|]; [|exact I]. cbn [andb]. destruct (is_none _); [|exact I]. cbn [all_ok]. split; [|exact I]. split; [|exact I].
    intros _ _. cbn [act]. rewrite type_x; cbn [length]; lia.
  - destruct (is_none _); [|exact I]. cbn [all_ok]. split; [|exact I]. split; [|exact I]. intros Q. destruct (NT Q eq_refl).
Qed.

Lemma loop_ok keys : forall e b r s res ops, edit_loop w h keys e r = Some (res, ops) ->
  holds e b -> no_wide_spaces (whole b) -> Forall plain_key keys -> pending w h e r s -> (tight = true -> ~ In KTab keys) ->
  all_ok ops s /\ exists pre x y, ops = pre ++ [ELocate x y; EShow; ESyncNow] /\ g_on (acts w h pre s) = false.
Proof.
  induction keys as [|k keys IH]; intros e b r s res ops E Hb NW PK P NT; cbn [edit_loop] in E;
    destruct (before_key_spec w h e r W H (holds_line e b Hb)) as (e1 & r1 & ops1 & E1 & D1 & Sm & I1 & C1); rewrite E1 in E;
    assert (Y : ready w h e1 (acts w h (ops1 ++ [ELocate (e_col e1 - e_vcol e1) (e_line e1 - e_vline e1); EShow; ESyncNow]) s))
      by (apply draw_ready with r1; try assumption; destruct C1 as [->|[-> ->]]; [exact I|exact P]);
    destruct (draw_ok e1 r1 ops1 s D1 I1) as [O1 O2];
    set (ops2 := ops1 ++ [ELocate (e_col e1 - e_vcol e1) (e_line e1 - e_vline e1); EShow; ESyncNow]) in *.
  - assert (Waiting e1 = res /\ ops2 = ops) as [<- <-] by (split; congruence). split; [exact O1|]. do 3 eexists. split; [reflexivity|exact O2].
  - destruct (leaves k); [assert (Left e1 keys = res /\ ops2 = ops) as [<- <-] by (split; congruence); split; [exact O1|]; do 3 eexists; split; [reflexivity|exact O2]|].
    pose proof (holds_same _ _ _ Sm Hb) as Hb1. inversion PK as [|? ? PK1 PK2]; subst.
    destruct (press_holds w h W H (e_col e1 - e_vcol e1) k e1 b Hb1 PK1 NW) as (e2 & r2 & ops3 & E2 & H2 & _). rewrite E2 in E.
    destruct (edit_loop w h keys e2 r2) as [[res' ops4]|] eqn:E3; [|discriminate].
    assert (res' = res /\ ops2 ++ ops3 ++ ops4 = ops) as [<- <-] by (split; congruence).
    assert (P2 : pending w h e2 r2 (acts w h ops3 (acts w h ops2 s))) by (destruct (holds_zip e1 b Hb1) as (A & p & t & B & Z); eapply press_pending; try eassumption; reflexivity).
    destruct (IH e2 _ r2 _ res' ops4 E3 H2 (no_wide_key h k b PK1 NW) PK2 P2 (fun T J => NT T (or_intror J))) as (O4 & pre & x & y & -> & O5).
    split.
    + apply all_ok_app. split; [exact O1|]. apply all_ok_app. split; [|exact O4].
      eapply press_ok; try eassumption; [reflexivity|]. intros T ->. apply (NT T). left. reflexivity.
    + exists (ops2 ++ ops3 ++ pre), x, y. split; [rewrite !app_assoc; reflexivity|]. rewrite !acts_app. exact O5.
Qed.

(** ** The device *)

Lemma fold_effect ops : forall s, fst (fst (fold_left (effect_of v0 z) ops s)) = fold_left (fun v o => effect_on v0 z o v) ops (fst (fst s)).
Proof. induction ops as [|o ops IH]; intros s; [reflexivity|]. cbn [fold_left]. rewrite IH, effect_view. reflexivity. Qed.

Lemma cell_on c r p : c < w -> r < h -> in_area (cell z (Z.of_nat c) (Z.of_nat r)) p = true -> on z p.
Proof.
  intros C R A. apply cell_iff in A. pose proof (cols_pos _ _ Gs) as [_ Cp]. pose proof (rows_pos _ _ Gs) as [_ Rp]. pose proof (gs_gw _ _ Gs). pose proof (gs_gh _ _ Gs).
  split; nia.
Qed.

Lemma edit_pixels sync keys e b g v seen sy : agrees v0 z g (v, seen, sy) -> v_alt v = None ->
  holds e b -> no_wide_spaces (whole b) -> ascii_name (e_name e) -> Forall plain_key keys -> (forall k, In k keys -> leaves k = false) ->
  (tight = true -> ~ In KTab keys) ->
  exists e' ops g' s, edit w h sync keys e = Some (Waiting e', ops) /\ run_ops v0 (map on_console ops) g = Some g' /\
    shows w h (e_name e) (e_dirty e || modifies h keys b) (type_keys h keys b) s /\
    forall c r p, c < w -> r < h -> in_area (cell z (Z.of_nat c) (Z.of_nat r)) p = true ->
      shown (c_lcd g') p = if (c =? g_x s) && (r =? g_y s) then encode v0 (rgb_of 7) else glyph_pixel v0 z (g_cell s c r) c r p.
Proof.
  intros Ag Al Hb NW As PK NL NT. unfold edit, edit_interactively. rewrite (with_a_line_same e b Hb).
  destruct (loop_waiting w h W H keys e b RFull Hb NW PK NL) as (e' & ops & E & R1 & R2 & R3). rewrite E.
  set (s0 := mkScreen (fun _ _ => (32%N, (None, None))) 0 0 (v_on v) (v_fg v, v_bg v) None).
  set (s1 := acts w h [EEnterAlt; ESync false] s0).
  assert (L1 : looks s1 (effect_on v0 z GEnterAlt v)).
  { cbn [effect_on]. apply show_looks; [|reflexivity|reflexivity]. constructor; [|reflexivity|reflexivity|cbn; lia].
    intros c r p _ _ _. cbn [fst]. symmetry. apply blank_pixel. }
  assert (F1 : all_fine v0 z [GEnterAlt; GSync false] v).
  { assert (F0 : cursor_fits z (effect_on v0 z GEnterAlt v)) by (intros _; cbn [effect_on show v_x]; pose proof (gs_gw _ _ Gs); lia).
    cbn [all_fine]. unfold fine. split; [split; [exact F0|exact Al]|]. split; [split; [exact F0|exact I]|exact I]. }
  pose proof (loop_screen w h W H keys e b RFull s1 _ _ E Hb NW PK I) as Y. cbn [editor_of] in Y.
  destruct (loop_ok keys e b RFull s1 _ _ E Hb NW PK I NT) as (Ok & pre & x & y & Ep & Off).
  destruct (acts_look ops s1 _ L1 Ok) as [F2 L2].
  assert (AF : forall a b v, all_fine v0 z (a ++ b) v <-> all_fine v0 z a v /\ all_fine v0 z b (fold_left (fun v o => effect_on v0 z o v) a v)).
  { clear. induction a as [|o a IH]; intros b v; cbn [app all_fine fold_left]; [tauto|]. rewrite IH. tauto. }
  destruct (run_ops_spec v0 z (map on_console (EEnterAlt :: ESync false :: ops)) Gs g (v, seen, sy) Ag) as (g' & Rg & Ag').
  { change (map on_console (EEnterAlt :: ESync false :: ops)) with ([GEnterAlt; GSync false] ++ map on_console ops). apply AF. split; [exact F1|exact F2]. }
  exists e', (EEnterAlt :: ESync false :: ops), g', (acts w h ops s1). split; [reflexivity|]. split; [exact Rg|].
  split; [rewrite <- R2, <- R3; apply ready_shows; try assumption; rewrite R2; exact As|].
  intros c r p C R A. rewrite (a_seen _ _ _ _ Ag' p (cell_on c r p C R A)).
  change (map on_console (EEnterAlt :: ESync false :: ops)) with ([GEnterAlt; GSync false] ++ map on_console ops).
  rewrite Ep, map_app, app_assoc, fold_left_app. change (map on_console [ELocate x y; EShow; ESyncNow]) with [GLocate (Z.of_nat x) (Z.of_nat y); GShow; GSyncNow].
  set (st := fold_left (effect_of v0 z) ([GEnterAlt; GSync false] ++ map on_console pre) (v, seen, sy)).
  assert (Vst : fst (fst st) = fold_left (fun v o => effect_on v0 z o v) (map on_console pre) (effect_on v0 z GEnterAlt v)).
  { unfold st. rewrite fold_effect, fold_left_app. reflexivity. }
  rewrite Ep in Ok. apply all_ok_app in Ok. destruct Ok as [Ok1 Ok2]. destruct (acts_look pre s1 _ L1 Ok1) as [_ L3]. rewrite <- Vst in L3.
  assert (E2 : acts w h ops s1 = acts w h [ELocate x y; EShow; ESyncNow] (acts w h pre s1)) by (rewrite Ep; apply acts_app).
  rewrite Ep in Y. rewrite acts_app in Y. rewrite <- Ep. rewrite E2. set (s2 := acts w h pre s1) in *. destruct st as [[v2 seen2] sy2] eqn:Est. cbn [fst] in L3. clear Vst Est.
  destruct L3 as [[C3 X3 Y3 _] O3 Co3]. cbn [page_of fst snd] in C3. rewrite Off in O3.
  pose proof (y_color _ _ _ _ Y) as Yc. cbn [acts fold_left act moved g_color] in Yc.
  cbn [fold_left effect_of effect_on]. unfold show. cbn [v_on v_under v_x v_y v_fg v_bg v_alt v_screen page_of fst snd]. rewrite O3.
  cbn [v_on v_under v_x v_y v_fg v_bg v_alt v_screen page_of fst snd]. destruct sy2; cbn [v_screen fst snd]; unfold paint; rewrite (cell_same _ _ _ _ _ A); cbn [acts fold_left act moved g_x g_y g_cell];
    (destruct ((c =? x) && (r =? y)); [unfold fg_of; cbn [v_fg]; rewrite Yc in Co3; injection Co3 as -> _; reflexivity|apply C3; assumption]).
Qed.
End Pixels.
