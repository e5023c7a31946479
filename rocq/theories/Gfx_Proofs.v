(** Proofs about the graphical console. *)
From Verif Require Import Base Colors_Model Draw_Model Draw_Spec Draw_Proofs Lcd_Model Lcd_Spec Lcd_Proofs Gfx_Model Gfx_Spec.
Local Open Scope Z_scope.
Local Open Scope list_scope.

(** * The console with the cursor out of the way *)

Definition alt_agrees (u : setup) (z : sizes) (v : view) (g : con) : Prop :=
  match v_alt v, c_alt g with
  | None, None => True
  | Some (P, (x, y), (fg, bg)), Some (data, pos, (fg', bg'), (cfg, cbg)) =>
    data = block (box (0, 0) (s_w z) (s_h z)) P /\ pos = (x, y) /\ fg' = fg /\ bg' = bg /\
    0 <= x <= cols z /\ 0 <= y < rows z /\
    encode u cfg = encode u (rgb_of match fg with Some c => c | None => def_fg u end) /\
    encode u cbg = encode u (rgb_of match bg with Some c => c | None => def_bg u end)
  | _, _ => False
  end.

Record plain (u : setup) (z : sizes) (g : con) (v : view) (pg : page) (seen : picture) (sync : bool) : Prop := mkPlain {
  p_sound : sound (c_lcd g);
  p_live : live (c_lcd g);
  p_w : l_width (c_lcd g) = s_w z;
  p_h : l_height (c_lcd g) = s_h z;
  p_chars : c_chars g = (cols z, rows z);
  p_sync : c_sync g = sync;
  p_lsync : l_sync (c_lcd g) = sync;
  p_cursor : c_cursor g = (snd (fst pg), snd pg);
  p_place : 0 <= snd (fst pg) <= cols z /\ 0 <= snd pg < rows z;
  p_visible : c_visible g = v_on v;
  p_fg : c_ansi_fg g = v_fg v /\ encode u (c_fg g) = fg_of u v;
  p_bg : c_ansi_bg g = v_bg v /\ encode u (c_bg g) = bg_of u v;
  p_canvas : same_on z (canvas (c_lcd g)) (fst (fst pg));
  p_seen : same_on z (shown (c_lcd g)) (if sync then fst (fst pg) else seen);
  p_backup : c_backup g = None;
  p_alt : alt_agrees u z v g
}.

Lemma on_lcd_display z d p : l_width d = s_w z -> l_height d = s_h z -> on z p <-> on_display d p.
Proof. intros A B. unfold on, on_display. rewrite A, B. reflexivity. Qed.

Lemma sound_color d c : sound d -> sound (set_draw_color c d).
Proof. intros [A B C D E]. constructor; assumption. Qed.

Lemma live_color d c : live d -> live (set_draw_color c d).
Proof. intros L. exact L. Qed.

Lemma plain_step u z g v P Q Q' x y seen sync c d' : plain u z g v (P, x, y) seen sync ->
  becomes Q (set_draw_color c (c_lcd g)) d' -> same_on z Q Q' ->
  plain u z (with_lcd g d') v (Q', x, y) seen sync.
Proof.
  intros [A1 A2 A3 A4 A5 A6 A7 A8 A9 A10 A11 A12 A13 A14 A15 A16] B E.
  assert (D : forall p, on z p <-> on_display (set_draw_color c (c_lcd g)) p) by (intros p; apply on_lcd_display; assumption).
  constructor; cbn [with_lcd c_lcd c_chars c_cursor c_visible c_backup c_ansi_fg c_ansi_bg c_fg c_bg c_alt c_sync fst snd] in *; auto.
  - apply (b_sound _ _ _ B).
  - apply (becomes_live _ _ _ B).
  - rewrite (b_width _ _ _ B). exact A3.
  - rewrite (b_height _ _ _ B). exact A4.
  - rewrite (b_sync _ _ _ B). exact A7.
  - intros p X. rewrite (b_canvas _ _ _ B) by (apply D, X). apply E, X.
  - intros p X. rewrite (b_shown _ _ _ B) by (apply D, X). cbn [set_draw_color with_color l_sync]. 
    change (l_sync (set_draw_color c (c_lcd g))) with (l_sync (c_lcd g)). rewrite A7.
    change (shown (set_draw_color c (c_lcd g)) p) with (shown (c_lcd g) p).
    rewrite A14 by exact X. destruct sync; [apply E, X|reflexivity].
Qed.

(** The canvas of the LCD under another color. *)
Lemma paint_same z w c P Q : same_on z P Q -> same_on z (paint w c P) (paint w c Q).
Proof. intros E p X. unfold paint. rewrite E by exact X. reflexivity. Qed.

Lemma plain_rect u z g v P x y seen sync c p w h : plain u z g v (P, x, y) seen sync ->
  1 <= w <= 65536 -> 1 <= h <= 65536 -> fst p < s_w z -> snd p < s_h z ->
  exists d', draw_rect_filled p w h (set_draw_color (encode u c) (c_lcd g)) = Some d' /\
    plain u z (with_lcd g d') v (paint (in_area (box p w h)) (encode u c) P, x, y) seen sync.
Proof.
  intros G W H Px Py.
  destruct (draw_rect_filled_becomes (set_draw_color (encode u c) (c_lcd g)) p w h) as (d' & E & B).
  - apply sound_color, G.
  - apply live_color, G.
  - exact W.
  - exact H.
  - left. change (fst p < l_width (c_lcd g)). rewrite (p_w _ _ _ _ _ _ _ G). exact Px.
  - left. change (snd p < l_height (c_lcd g)). rewrite (p_h _ _ _ _ _ _ _ G). exact Py.
  - exists d'. split; [exact E|]. apply (plain_step _ _ _ _ _ _ _ _ _ _ _ _ _ G B).
    change (same_on z (paint (in_area (box p w h)) (encode u c) (canvas (c_lcd g))) (paint (in_area (box p w h)) (encode u c) P)).
    apply paint_same, G.
Qed.

Lemma plain_shape u z g v P x y seen sync c l : plain u z g v (P, x, y) seen sync ->
  exists d', draw_all l (set_draw_color (encode u c) (c_lcd g)) = Some d' /\
    plain u z (with_lcd g d') v (paint (in_list l) (encode u c) P, x, y) seen sync.
Proof.
  intros G.
  destruct (draw_all_becomes l (set_draw_color (encode u c) (c_lcd g))) as (d' & E & B).
  - apply sound_color, G.
  - apply live_color, G.
  - exists d'. split; [exact E|]. apply (plain_step _ _ _ _ _ _ _ _ _ _ _ _ _ G B).
    change (same_on z (paint (in_list l) (encode u c) (canvas (c_lcd g))) (paint (in_list l) (encode u c) P)).
    apply paint_same, G.
Qed.

Lemma plain_clear u z g v P x y seen sync c : plain u z g v (P, x, y) seen sync ->
  exists d', clear (set_draw_color (encode u c) (c_lcd g)) = Some d' /\
    plain u z (with_lcd g d') v (fun _ => encode u c, x, y) seen sync.
Proof.
  intros G.
  destruct (clear_becomes (set_draw_color (encode u c) (c_lcd g))) as (d' & E & B).
  - apply sound_color, G.
  - apply live_color, G.
  - exists d'. split; [exact E|]. apply (plain_step _ _ _ _ _ _ _ _ _ _ _ _ _ G B).
    intros p _. reflexivity.
Qed.

Lemma plain_cursor u z g v P x y x' y' seen sync : plain u z g v (P, x, y) seen sync ->
  0 <= x' <= cols z -> 0 <= y' < rows z -> plain u z (with_cursor g (x', y')) v (P, x', y') seen sync.
Proof. intros [A1 A2 A3 A4 A5 A6 A7 A8 A9 A10 A11 A12 A13 A14 A15 A16] X Y. constructor; auto. Qed.

Lemma plain_ext u z g v P Q x y seen sync : plain u z g v (P, x, y) seen sync -> same_on z P Q ->
  plain u z g v (Q, x, y) seen sync.
Proof.
  intros [A1 A2 A3 A4 A5 A6 A7 A8 A9 A10 A11 A12 A13 A14 A15 A16] E. cbn [fst snd] in *. constructor; auto; cbn [fst snd].
  - intros p X. rewrite A13 by exact X. apply E, X.
  - intros p X. rewrite A14 by exact X. destruct sync; [apply E, X|reflexivity].
Qed.

(** * Sizes *)

Lemma cols_pos u z : good_sizes u z -> 1 <= cols z /\ cols z * s_gw z <= s_w z < (cols z + 1) * s_gw z.
Proof.
  intros G. pose proof (gs_gw u z G). unfold cols. pose proof (Z.div_mod (s_w z) (s_gw z) ltac:(lia)) as D.
  pose proof (Z.mod_pos_bound (s_w z) (s_gw z) ltac:(lia)). split; [|nia].
  apply Z.div_le_lower_bound; lia.
Qed.

Lemma rows_pos u z : good_sizes u z -> 2 <= rows z /\ rows z * s_gh z <= s_h z < (rows z + 1) * s_gh z.
Proof.
  intros G. pose proof (gs_gh u z G). unfold rows. pose proof (Z.div_mod (s_h z) (s_gh z) ltac:(lia)) as D.
  pose proof (Z.mod_pos_bound (s_h z) (s_gh z) ltac:(lia)). split; [|nia].
  apply Z.div_le_lower_bound; lia.
Qed.

Lemma cell_bounds u z x y : good_sizes u z -> 0 <= x <= cols z -> 0 <= y < rows z ->
  0 <= x * s_gw z <= s_w z /\ 0 <= y * s_gh z /\ y * s_gh z + s_gh z <= s_h z /\ x <= 32767 /\ y <= 32767.
Proof.
  intros G X Y. pose proof (cols_pos u z G). pose proof (rows_pos u z G). pose proof (gs_gw u z G). pose proof (gs_gh u z G).
  pose proof (gs_max u z G). nia.
Qed.

Lemma pixels_of_spec u z x y : good_sizes u z -> 0 <= x <= cols z -> 0 <= y < rows z ->
  pixels_of u (x, y) = (x * s_gw z, y * s_gh z).
Proof.
  intros G X Y. pose proof (cell_bounds u z x y G X Y) as B. pose proof (gs_max u z G). pose proof (gs_gh u z G).
  unfold pixels_of, clamp_pos_i16. cbn [fst snd]. rewrite <- (gs_w u z G), <- (gs_h u z G).
  destruct (32767 <? x * s_gw z) eqn:E1; [lia|]. destruct (32767 <? y * s_gh z) eqn:E2; [lia|]. reflexivity.
Qed.

(** * The cursor *)

Lemma clip_x2y2_clipped d p w w' h : sound d -> on_display d p -> 1 <= w <= 65536 -> 1 <= h <= 65536 ->
  w' = Z.min w (l_width d - fst p) -> clip_x2y2 d p w h = clip_x2y2 d p w' h.
Proof.
  intros So On W H ->. unfold on_display in On. pose proof (s_width d So). unfold clip_x2y2, to_u16.
  rewrite !Z.mod_small by lia. rewrite !clip2_spec by lia.
  destruct (fst p + (w - 1) <? 0) eqn:A; [lia|]. destruct (fst p + (Z.min w (l_width d - fst p) - 1) <? 0) eqn:B; [lia|].
  destruct (snd p + (h - 1) <? 0); [reflexivity|]. f_equal. f_equal. lia.
Qed.

Lemma in_cell_on z x y p : on z p ->
  in_area (cell z x y) p = in_area (clipped z x y) p.
Proof.
  intros [X Y]. unfold cell, clipped, box, in_area. cbn [fst snd].
  replace (fst p <=? x * s_gw z + Z.min (s_gw z) (s_w z - x * s_gw z) - 1) with (fst p <=? x * s_gw z + s_gw z - 1) by lia.
  reflexivity.
Qed.

Lemma block_ext a P Q : (forall p, in_area a p = true -> P p = Q p) -> block a P = block a Q.
Proof.
  intros E. unfold block. rewrite !flat_map_concat_map. f_equal. apply map_ext_in. intros y Y. apply range_in in Y.
  apply map_ext_in. intros x X. apply range_in in X. apply E. apply in_area_spec. cbn [fst snd]. lia.
Qed.

Lemma clear_cursor_spec u z g v seen sync : good_sizes u z -> agrees u z g (v, seen, sync) ->
  exists g', clear_cursor u g = Some g' /\ plain u z g' v (page_of v) seen sync.
Proof.
  intros Gs [A1 A2 A3 A4 A5 A6 A7 A8 A9 A10 A11 A12 A13 A14 A15 A16]. cbn [fst snd] in *. unfold clear_cursor. rewrite A10.
  destruct (v_on v) eqn:On; cbn [negb].
  - destruct A15 as [Bk Out]. rewrite Bk. destruct A6 as [A6 A6'].
    set (x := v_x v) in *. set (y := v_y v) in *.
    assert (Fi : x * s_gw z < s_w z) by (apply A9, On).
    pose proof (cell_bounds u z x y Gs (proj1 A8) (proj2 A8)) as Cb. pose proof (gs_gw u z Gs). pose proof (gs_gh u z Gs).
    pose proof (gs_max u z Gs).
    assert (Px : pixels_of u (c_cursor g) = (x * s_gw z, y * s_gh z)) by (rewrite A7; apply pixels_of_spec; tauto).
    set (w' := Z.min (s_gw z) (s_w z - x * s_gw z)).
    assert (Ond : on_display (c_lcd g) (x * s_gw z, y * s_gh z)) by (unfold on_display; rewrite A3, A4; cbn [fst snd]; lia).
    destruct (put_pixels_becomes (c_lcd g) (x * s_gw z, y * s_gh z) w' (s_gh z) (block (clipped z x y) (v_under v)) (v_under v))
      as (d' & E & B); [assumption|assumption| |reflexivity|].
    { unfold box_fits. split; [exact Ond|]. rewrite A3, A4. cbn [fst snd]. lia. }
    assert (E' : put_pixels (pixels_of u (c_cursor g)) (block (clipped z x y) (v_under v)) (gw u) (gh u) (c_lcd g) = Some d').
    { rewrite Px, <- (gs_w u z Gs), <- (gs_h u z Gs), <- E. unfold put_pixels.
      rewrite (clip_x2y2_clipped (c_lcd g) (x * s_gw z, y * s_gh z) (s_gw z) w' (s_gh z) A1 Ond) by (try lia; rewrite A3; reflexivity).
      reflexivity. }
    unfold on_lcd. rewrite E'. cbn [bind]. eexists. split; [reflexivity|].
    assert (Dp : forall p, on z p <-> on_display (c_lcd g) p) by (intros p; apply on_lcd_display; assumption).
    assert (Cv : forall p, on z p -> paste (in_area (box (x * s_gw z, y * s_gh z) w' (s_gh z))) (v_under v) (canvas (c_lcd g)) p = v_under v p).
    { intros p X. unfold paste. destruct (in_area (box (x * s_gw z, y * s_gh z) w' (s_gh z)) p) eqn:I; [reflexivity|].
      rewrite A13 by exact X. symmetry. apply Out; [exact X|]. rewrite in_cell_on by exact X. exact I. }
    constructor; cbn [with_lcd with_backup c_lcd c_chars c_cursor c_visible c_backup c_ansi_fg c_ansi_bg c_fg c_bg c_alt c_sync page_of fst snd]; auto.
    + apply (b_sound _ _ _ B).
    + apply (becomes_live _ _ _ B).
    + rewrite (b_width _ _ _ B). exact A3.
    + rewrite (b_height _ _ _ B). exact A4.
    + rewrite (b_sync _ _ _ B). exact A6'.
    + congruence.
    + intros p X. rewrite (b_canvas _ _ _ B) by (apply Dp, X). apply Cv, X.
    + intros p X. rewrite (b_shown _ _ _ B) by (apply Dp, X). rewrite A6'. destruct sync; [apply Cv, X|apply A14, X].
  - exists g. split; [reflexivity|]. destruct A15 as [Bk Sm]. destruct A6 as [A6 A6'].
    constructor; cbn [page_of fst snd]; auto.
    + congruence.
    + intros p X. rewrite Sm by exact X. apply A13, X.
    + intros p X. destruct sync; [|apply A14, X]. rewrite A2; [|exact A6'|apply (on_lcd_display z); assumption].
      rewrite Sm by exact X. apply A13, X.
Qed.

Lemma draw_cursor_spec u z g v P x y seen sync : good_sizes u z -> plain u z g v (P, x, y) seen sync ->
  (v_on v = true -> x * s_gw z < s_w z) ->
  exists g', draw_cursor u g = Some g' /\
    agrees u z g' (show u z v (P, x, y), if sync then v_screen (show u z v (P, x, y)) else seen, sync).
Proof.
  intros Gs G Fi. pose proof G as G0. destruct G as [A1 A2 A3 A4 A5 A6 A7 A8 A9 A10 A11 A12 A13 A14 A15 A16]. cbn [fst snd] in *.
  unfold draw_cursor. rewrite A10. unfold show. destruct (v_on v) eqn:On; cbn [negb].
  - specialize (Fi eq_refl). rewrite A15.
    pose proof (cell_bounds u z x y Gs (proj1 A9) (proj2 A9)) as Cb. pose proof (gs_gw u z Gs). pose proof (gs_gh u z Gs).
    pose proof (gs_max u z Gs).
    assert (Px : pixels_of u (c_cursor g) = (x * s_gw z, y * s_gh z)) by (rewrite A8; apply pixels_of_spec; tauto).
    rewrite Px, <- (gs_w u z Gs), <- (gs_h u z Gs).
    set (w' := Z.min (s_gw z) (s_w z - x * s_gw z)).
    assert (Ond : on_display (c_lcd g) (x * s_gw z, y * s_gh z)) by (unfold on_display; rewrite A3, A4; cbn [fst snd]; lia).
    assert (R : read_pixels (x * s_gw z, y * s_gh z) (s_gw z) (s_gh z) (c_lcd g) = Some (block (clipped z x y) P)).
    { unfold read_pixels.
      rewrite (clip_x2y2_clipped (c_lcd g) (x * s_gw z, y * s_gh z) (s_gw z) w' (s_gh z) A1 Ond) by (try lia; rewrite A3; reflexivity).
      assert (Bf : box_fits (c_lcd g) (x * s_gw z, y * s_gh z) w' (s_gh z)).
      { unfold box_fits. split; [exact Ond|]. rewrite A3, A4. cbn [fst snd]. lia. }
      pose proof (read_pixels_spec (c_lcd g) (x * s_gw z, y * s_gh z) w' (s_gh z) A1 Bf) as R. unfold read_pixels in R. rewrite R.
      f_equal. apply block_ext. intros p I. apply in_area_spec in I. unfold clipped, box in I. cbn [fst snd] in I.
      apply A13. unfold on. subst w'. lia. }
    rewrite R. cbn [bind].
    destruct (plain_rect u z g v P x y seen sync (c_fg g) (x * s_gw z, y * s_gh z) (s_gw z) (s_gh z) G0) as (d' & E & B);
      [lia|lia|cbn [fst]; lia|cbn [snd]; lia|].
    unfold on_lcd, ink. cbn [with_lcd with_backup c_lcd c_fg]. rewrite E. cbn [bind]. eexists. split; [reflexivity|].
    destruct B as [B1 B2 B3 B4 B5 B6 B7 B8 B9 B10 B11 B12 B13 B14 B15 B16].
    constructor; cbn [with_lcd with_backup c_lcd c_chars c_cursor c_visible c_backup c_ansi_fg c_ansi_bg c_fg c_bg c_alt c_sync
                      v_under v_screen v_x v_y v_on v_fg v_bg v_alt fst snd] in *; auto.
    + intros _. exact Fi.
    + intros p X. rewrite B13 by exact X. fold (cell z x y). rewrite (proj2 A11). reflexivity.
    + intros p X. rewrite B14 by exact X. destruct sync; [|reflexivity]. fold (cell z x y). rewrite (proj2 A11). reflexivity.
    + split; [reflexivity|]. intros p X I. unfold paint. rewrite I. reflexivity.
  - exists g. split; [reflexivity|]. constructor; cbn [v_under v_screen v_x v_y v_on v_fg v_bg v_alt fst snd] in *; auto.
    split; [exact A15|]. intros p _. reflexivity.
Qed.

(** * Synchronization *)

Lemma agrees_off u z g v seen sync : agrees u z g (v, seen, sync) ->
  exists g', set_csync false g = Some g' /\ agrees u z g' (v, seen, false).
Proof.
  intros [A1 A2 A3 A4 A5 A6 A7 A8 A9 A10 A11 A12 A13 A14 A15 A16]. unfold set_csync. rewrite andb_false_r. cbn [bind].
  eexists. split; [reflexivity|]. constructor; cbn [fst snd] in *; auto.
  - apply sound_sync, A1.
  - intros X. discriminate.
Qed.

Lemma agrees_present u z g v seen sync : agrees u z g (v, seen, sync) ->
  exists d', present_canvas (c_lcd g) = Some d' /\ agrees u z (with_lcd g d') (v, v_screen v, sync).
Proof.
  intros [A1 A2 A3 A4 A5 A6 A7 A8 A9 A10 A11 A12 A13 A14 A15 A16]. cbn [fst snd] in *.
  destruct (present_spec (c_lcd g) A1 A2) as (d' & E & S' & L' & (T1 & T2 & T3 & T4) & Cv & Sh).
  exists d'. split; [exact E|].
  constructor; cbn [fst snd with_lcd c_lcd c_chars c_cursor c_visible c_backup c_ansi_fg c_ansi_bg c_fg c_bg c_alt c_sync] in *; auto.
  - congruence.
  - congruence.
  - split; [apply A6|]. rewrite T3. apply A6.
  - intros p X. rewrite Cv. apply A13, X.
  - intros p X. rewrite Sh by (apply (on_lcd_display z); assumption). apply A13, X.
Qed.

Lemma agrees_on u z g v seen sync : agrees u z g (v, seen, sync) ->
  exists g', set_csync true g = Some g' /\ agrees u z g' (v, v_screen v, true).
Proof.
  intros G. unfold set_csync. rewrite andb_true_r.
  assert (X : exists g1, (if negb (c_sync g) then on_lcd present_canvas g else Some g) = Some g1 /\ agrees u z g1 (v, v_screen v, sync)).
  { destruct (c_sync g) eqn:Sy; cbn [negb].
    - exists g. split; [reflexivity|]. destruct G as [A1 A2 A3 A4 A5 A6 A7 A8 A9 A10 A11 A12 A13 A14 A15 A16]. constructor; cbn [fst snd] in *; auto.
      intros p X. rewrite A2; [apply A13, X| |apply (on_lcd_display z); assumption].
      rewrite (proj2 A6), <- (proj1 A6). exact Sy.
    - destruct (agrees_present u z g v seen sync G) as (d' & E & A). unfold on_lcd. rewrite E. cbn [bind]. eauto. }
  destruct X as (g1 & -> & [A1 A2 A3 A4 A5 A6 A7 A8 A9 A10 A11 A12 A13 A14 A15 A16]). cbn [bind]. eexists. split; [reflexivity|].
  constructor; cbn [fst snd with_lcd with_csync c_lcd c_chars c_cursor c_visible c_backup c_ansi_fg c_ansi_bg c_fg c_bg c_alt c_sync] in *; auto.
  - apply sound_sync, A1.
  - intros _ p X. change (shown (c_lcd g1) p = canvas (c_lcd g1) p).
    assert (X' : on z p) by (apply (on_lcd_display z (c_lcd g1)); assumption).
    rewrite A13, A14 by exact X'. reflexivity.
Qed.

Lemma present_agrees u z g v seen sync : agrees u z g (v, seen, sync) ->
  exists g', present g = Some g' /\ agrees u z g' (v, if sync then v_screen v else seen, sync).
Proof.
  intros G. unfold present. pose proof (proj1 (a_sync _ _ _ _ G)) as Sy. cbn [snd] in Sy. rewrite Sy. destruct sync.
  - destruct (agrees_present u z g v seen true G) as (d' & E & A). unfold on_lcd. rewrite E. cbn [bind]. eauto.
  - eauto.
Qed.

(** * Text *)

Lemma open_line_spec u z g v P x y seen sync : good_sizes u z -> plain u z g v (P, x, y) seen sync ->
  exists g', open_line u g = Some g' /\ plain u z g' v (next_line z (bg_of u v) (P, x, y)) seen sync.
Proof.
  intros Gs G. pose proof (rows_pos u z Gs) as R. pose proof (cols_pos u z Gs) as Cp. pose proof (gs_gh u z Gs) as Hh. pose proof (gs_max u z Gs) as M.
  pose proof (gs_gw u z Gs) as Ww.
  unfold open_line, next_line. rewrite (p_cursor _ _ _ _ _ _ _ G), (p_chars _ _ _ _ _ _ _ G). cbn [fst snd].
  destruct (p_place _ _ _ _ _ _ _ G) as [X Y]. cbn [fst snd] in X, Y.
  assert (R' : rows z <= 32767) by nia.
  unfold to_u16 at 1 2. rewrite !Z.mod_small by lia.
  replace (y <? rows z - 1) with (y + 1 <? rows z) by lia. destruct (y + 1 <? rows z) eqn:L; [apply Z.ltb_lt in L|apply Z.ltb_ge in L].
  { eexists. split; [reflexivity|]. apply (plain_cursor _ _ _ _ _ x y); [exact G|lia|lia]. }
  rewrite (p_w _ _ _ _ _ _ _ G), (p_h _ _ _ _ _ _ _ G), <- (gs_h u z Gs).
  set (th1 := (rows z - 1) * s_gh z). assert (Th : rows z * s_gh z = th1 + s_gh z) by (unfold th1; lia).
  assert (Th1 : s_gh z <= th1) by (unfold th1; nia). rewrite Th in *.
  assert (C1 : clamp_pos_u16 (th1 + s_gh z) = th1 + s_gh z) by (unfold clamp_pos_u16; destruct (65535 <? th1 + s_gh z) eqn:E; [lia|reflexivity]).
  assert (C2 : clamp_pos_i16 (s_gh z) = s_gh z) by (unfold clamp_pos_i16; destruct (32767 <? s_gh z) eqn:E; [lia|reflexivity]).
  assert (C3 : clamp_pos_i16 (th1 + s_gh z) = th1 + s_gh z) by (unfold clamp_pos_i16; destruct (32767 <? th1 + s_gh z) eqn:E; [lia|reflexivity]).
  rewrite C1, C2, C3. unfold to_u16. rewrite !Z.mod_small by lia. replace (th1 + s_gh z - s_gh z) with th1 by lia.
  assert (Bg : encode u (c_bg g) = bg_of u v) by apply (p_bg _ _ _ _ _ _ _ G).
  set (d0 := set_draw_color (encode u (c_bg g)) (c_lcd g)).
  assert (So : sound d0) by (apply sound_color, G). assert (Li : live d0) by (apply live_color, G).
  assert (W0 : l_width d0 = s_w z) by apply (p_w _ _ _ _ _ _ _ G). assert (H0 : l_height d0 = s_h z) by apply (p_h _ _ _ _ _ _ _ G).
  destruct (move_pixels_becomes d0 (0, s_gh z) (0, 0) (s_w z) th1 So Li) as (d1 & E1 & B1).
  { unfold box_fits, on_display. rewrite W0, H0. cbn [fst snd]. lia. }
  { unfold box_fits, on_display. rewrite W0, H0. cbn [fst snd]. lia. }
  unfold on_lcd, ink. cbn [with_lcd c_lcd]. fold d0. rewrite E1. cbn [bind].
  set (Q := fun p : point => if snd p <? th1 then P (fst p, snd p + s_gh z) else if snd p <? th1 + s_gh z then bg_of u v else P p).
  assert (G1 : plain u z (with_lcd g d1) v (Q, x, y) seen sync).
  { apply (plain_step _ _ _ _ _ _ Q _ _ _ _ _ _ G B1). intros p On. unfold paste, paint, box, in_area, Q, on in *. cbn [fst snd] in *.
    replace (snd p - 0 + s_gh z) with (snd p + s_gh z) by lia. replace (fst p - 0 + 0) with (fst p) by lia.
    assert (K : l_color d0 = bg_of u v) by exact Bg. rewrite K.
    assert (Cv : forall q, on z q -> canvas d0 q = P q) by (intros q Oq; apply (p_canvas _ _ _ _ _ _ _ G); exact Oq).
    destruct (snd p <? th1) eqn:T1; [apply Z.ltb_lt in T1|apply Z.ltb_ge in T1].
    - replace ((0 <=? fst p) && (fst p <=? 0 + s_w z - 1) && (0 <=? snd p) && (snd p <=? 0 + th1 - 1)) with true by lia.
      apply Cv. unfold on. cbn [fst snd]. lia.
    - replace ((0 <=? fst p) && (fst p <=? 0 + s_w z - 1) && (0 <=? snd p) && (snd p <=? 0 + th1 - 1)) with false by lia.
      destruct (snd p <? th1 + s_gh z) eqn:T2; [apply Z.ltb_lt in T2|apply Z.ltb_ge in T2].
      + replace ((0 <=? fst p) && (fst p <=? 0 + s_w z - 1) && (s_gh z <=? snd p) && (snd p <=? s_gh z + th1 - 1)) with true by lia. reflexivity.
      + replace ((0 <=? fst p) && (fst p <=? 0 + s_w z - 1) && (s_gh z <=? snd p) && (snd p <=? s_gh z + th1 - 1)) with false by lia.
        apply Cv. exact On. }
  destruct (th1 + s_gh z <? s_h z) eqn:T; [apply Z.ltb_lt in T|apply Z.ltb_ge in T].
  - destruct (plain_rect u z (with_lcd g d1) v Q x y seen sync (c_bg g) (0, th1 + s_gh z) (s_w z) (s_h z - (th1 + s_gh z)) G1)
      as (d2 & E2 & B2); try (cbn [fst snd]; lia).
    cbn [with_lcd c_lcd] in E2 |- *.
    assert (E2' : draw_rect_filled (0, th1 + s_gh z) (s_w z) (s_h z - (th1 + s_gh z)) d1 = Some d2).
    { rewrite <- E2. f_equal. unfold set_draw_color, with_color. destruct d1 as [w h fb dev sy dm co]. cbn [l_width l_height l_fb l_dev l_sync l_damage].
      f_equal. exact (b_color _ _ _ B1). }
    rewrite E2'. cbn [bind]. eexists. split; [reflexivity|].
    apply (plain_ext _ _ _ _ (paint (in_area (box (0, th1 + s_gh z) (s_w z) (s_h z - (th1 + s_gh z)))) (encode u (c_bg g)) Q)).
    + apply (plain_cursor _ _ (with_lcd g d2) _ _ x y); [exact B2|lia|lia].
    + intros p On. unfold paint, in_area, box, Q, on in *. cbn [fst snd]. rewrite Bg.
      destruct (snd p <? th1) eqn:T1; [apply Z.ltb_lt in T1|apply Z.ltb_ge in T1].
      * replace ((0 <=? fst p) && (fst p <=? 0 + s_w z - 1) && (th1 + s_gh z <=? snd p) && (snd p <=? th1 + s_gh z + (s_h z - (th1 + s_gh z)) - 1)) with false by lia.
        reflexivity.
      * destruct (snd p <? th1 + s_gh z) eqn:T2; [apply Z.ltb_lt in T2|apply Z.ltb_ge in T2].
        -- destruct (_ && _); reflexivity.
        -- replace ((0 <=? fst p) && (fst p <=? 0 + s_w z - 1) && (th1 + s_gh z <=? snd p) && (snd p <=? th1 + s_gh z + (s_h z - (th1 + s_gh z)) - 1)) with true by lia.
           reflexivity.
  - cbn [bind]. eexists. split; [reflexivity|].
    apply (plain_ext _ _ _ _ Q); [apply (plain_cursor _ _ (with_lcd g d1) _ _ x y); [exact G1|lia|lia]|].
    intros p On. unfold Q, on in *. destruct (snd p <? th1) eqn:T1; [reflexivity|]. destruct (snd p <? th1 + s_gh z) eqn:T2; [reflexivity|].
    apply Z.ltb_ge in T2. lia.
Qed.

Lemma lit_dot f c col row : lit f c col row = true <->
  exists i j, dot f c i j /\ col = Z.of_nat i /\ row = Z.of_nat j.
Proof.
  unfold lit, dot. rewrite !andb_true_iff, !Z.leb_le, !Z.ltb_lt. split.
  - intros (((((C & R) & Rh) & Ks) & Cw) & Bit).
    pose proof (Z.mod_pos_bound col 8 ltac:(lia)) as Mb. pose proof (Z.div_mod col 8 ltac:(lia)) as Dm. pose proof (Z.div_pos col 8 C ltac:(lia)) as Dp.
    exists (Z.to_nat col), (Z.to_nat row). split; [|lia]. split; [lia|].
    exists (Z.to_nat (col / 8)), (Z.to_nat (col mod 8)).
    split; [lia|]. split; [lia|]. split; [lia|]. split; [lia|].
    replace (N.of_nat (Z.to_nat (col mod 8))) with (Z.to_N (col mod 8)) by lia. exact Bit.
  - intros (i & j & (Rh & k & m & Ks & M8 & Mw & -> & Bit) & -> & ->).
    assert (D : Z.of_nat (8 * k + m) / 8 = Z.of_nat k) by (symmetry; apply (Z.div_unique _ _ _ (Z.of_nat m)); lia).
    assert (Mo : Z.of_nat (8 * k + m) mod 8 = Z.of_nat m) by (symmetry; apply (Z.mod_unique _ _ (Z.of_nat k)); lia).
    rewrite D, Mo, !Nat2Z.id. repeat split; try lia. replace (Z.to_N (Z.of_nat m)) with (N.of_nat m) by lia. exact Bit.
Qed.

Lemma dot_inside u z c i j : good_sizes u z -> dot (glyphs u) c i j -> Z.of_nat i < s_gw z /\ Z.of_nat j < s_gh z.
Proof.
  intros Gs (Rh & k & m & Ks & M8 & Mw & -> & _). rewrite (gs_w u z Gs), (gs_h u z Gs). unfold gw, gh.
  pose proof (gs_font u z Gs) as [F|F]; lia.
Qed.

Lemma cell_is16 u z x y : good_sizes u z -> 0 <= x < cols z -> 0 <= y < rows z ->
  (forall i, 0 <= i < 8 * Z.of_nat (f_stride (glyphs u)) -> is16 (x * s_gw z + i)) /\
  (forall j, 0 <= j < Z.of_nat (f_height (glyphs u)) -> is16 (y * s_gh z + j)).
Proof.
  intros Gs X Y. pose proof (cell_bounds u z x y Gs ltac:(lia) Y) as B. pose proof (gs_max u z Gs) as M.
  pose proof (gs_h u z Gs) as Hh. unfold gh in Hh. unfold is16. split; intros; lia.
Qed.

Lemma draw_char_lit u z c x y p : good_sizes u z -> 0 <= x < cols z -> 0 <= y < rows z ->
  (In p (draw_char (glyphs u) (x * s_gw z, y * s_gh z) c) <->
   lit (glyphs u) c (fst p - x * s_gw z) (snd p - y * s_gh z) = true).
Proof.
  intros Gs X Y. destruct (cell_is16 u z x y Gs X Y) as [Hx Hy]. rewrite draw_char_in by assumption. rewrite lit_dot. split.
  - intros (i & j & D & ->). exists i, j. cbn [fst snd]. split; [exact D|]. lia.
  - intros (i & j & D & E1 & E2). exists i, j. split; [exact D|]. destruct p as [a b]. cbn [fst snd] in *. f_equal; lia.
Qed.

(** Text that fits in the line is in its own cells. *)
Lemma draw_text_inside u z y : good_sizes u z -> 0 <= y < rows z -> forall text x p, 0 <= x -> x + Z.of_nat (length text) <= cols z ->
  In p (draw_text (glyphs u) (x * s_gw z, y * s_gh z) text) ->
  in_area (box (x * s_gw z, y * s_gh z) (Z.of_nat (length text) * s_gw z) (s_gh z)) p = true.
Proof.
  intros Gs Y. induction text as [|c text IH]; intros x p X L H; [destruct H|].
  cbn [length] in L. cbn [draw_text] in H. apply in_app_iff in H. cbn [fst snd] in H.
  pose proof (gs_gw u z Gs) as Ww. destruct H as [H|H].
  - rewrite (draw_char_lit u z) in H by (try assumption; lia). apply lit_dot in H. destruct H as (i & j & D & E1 & E2).
    destruct (dot_inside u z c i j Gs D). apply in_area_spec. unfold box. cbn [fst snd length]. nia.
  - assert (E : to_i16 (x * s_gw z + Z.of_nat (f_width (glyphs u))) = (x + 1) * s_gw z).
    { rewrite (gs_w u z Gs). unfold gw. rewrite to_i16_id; [lia|].
      pose proof (cell_bounds u z (x + 1) y Gs ltac:(lia) Y) as B. rewrite (gs_w u z Gs) in B. unfold gw in B. pose proof (gs_max u z Gs). unfold is16. lia. }
    rewrite E in H. apply IH in H; [|lia|lia]. apply in_area_spec in H. apply in_area_spec. unfold box in *. cbn [fst snd length] in *. nia.
Qed.

Lemma in_list_spec l p : in_list l p = true <-> In p l.
Proof.
  unfold in_list. rewrite existsb_exists. split.
  - intros (q & Q & E). apply point_eqb_eq in E. subst q. exact Q.
  - intros H. exists p. split; [exact H|]. apply point_eqb_eq. reflexivity.
Qed.

Lemma bool_ext (a b : bool) : (a = true <-> b = true) -> a = b.
Proof. destruct a, b; intuition congruence. Qed.

Lemma segment_spec u z fg bg y : good_sizes u z -> 0 <= y < rows z -> forall text P x, 0 <= x -> x + Z.of_nat (length text) <= cols z ->
  exists P', type_text z (glyphs u) fg bg text (P, x, y) = (P', x + Z.of_nat (length text), y) /\
    same_on z P' (paint (in_list (draw_text (glyphs u) (x * s_gw z, y * s_gh z) text)) fg
                  (paint (in_area (box (x * s_gw z, y * s_gh z) (Z.of_nat (length text) * s_gw z) (s_gh z))) bg P)).
Proof.
  intros Gs Y. induction text as [|c text IH]; intros P x X L.
  - exists P. cbn [type_text fold_left length]. split; [f_equal; f_equal; lia|]. intros p On. unfold paint. cbn [draw_text in_list existsb].
    destruct (in_area _ p) eqn:A; [|reflexivity]. apply in_area_spec in A. unfold box in A. cbn [fst snd length] in A. lia.
  - cbn [length] in L. pose proof (gs_gw u z Gs) as Ww. pose proof (gs_gh u z Gs) as Hh.
    set (P1 := fun p : point => if in_area (cell z x y) p then if lit (glyphs u) c (fst p - x * s_gw z) (snd p - y * s_gh z) then fg else bg else P p).
    assert (E1 : type_text z (glyphs u) fg bg (c :: text) (P, x, y) = type_text z (glyphs u) fg bg text (P1, x + 1, y)).
    { unfold type_text. cbn [fold_left]. f_equal. unfold type_char. cbn [fst snd]. destruct (x <? cols z) eqn:E; [reflexivity|lia]. }
    destruct (IH P1 (x + 1) ltac:(lia) ltac:(lia)) as (P' & E & Sm). exists P'. split.
    { etransitivity; [exact E1|]. etransitivity; [exact E|]. f_equal. f_equal. cbn [length]. lia. }
    intros p On. rewrite Sm by exact On. cbn [draw_text fst snd].
    assert (Pos : to_i16 (x * s_gw z + Z.of_nat (f_width (glyphs u))) = (x + 1) * s_gw z).
    { rewrite (gs_w u z Gs). unfold gw. rewrite to_i16_id; [lia|].
      pose proof (cell_bounds u z (x + 1) y Gs ltac:(lia) Y) as B. rewrite (gs_w u z Gs) in B. unfold gw in B. pose proof (gs_max u z Gs). unfold is16. lia. }
    rewrite Pos. unfold paint.
    assert (Ia : in_list (draw_char (glyphs u) (x * s_gw z, y * s_gh z) c ++ draw_text (glyphs u) ((x + 1) * s_gw z, y * s_gh z) text) p =
                 in_list (draw_char (glyphs u) (x * s_gw z, y * s_gh z) c) p || in_list (draw_text (glyphs u) ((x + 1) * s_gw z, y * s_gh z) text) p).
    { unfold in_list. apply existsb_app. }
    rewrite Ia.
    assert (Lt : in_list (draw_char (glyphs u) (x * s_gw z, y * s_gh z) c) p = lit (glyphs u) c (fst p - x * s_gw z) (snd p - y * s_gh z)).
    { apply bool_ext. rewrite in_list_spec. apply draw_char_lit; [exact Gs|lia|exact Y]. }
    rewrite Lt.
    assert (Ins : in_list (draw_text (glyphs u) ((x + 1) * s_gw z, y * s_gh z) text) p = true ->
                  in_area (box ((x + 1) * s_gw z, y * s_gh z) (Z.of_nat (length text) * s_gw z) (s_gh z)) p = true).
    { intros H. apply in_list_spec in H. apply draw_text_inside in H; [exact H|exact Gs|exact Y|lia|lia]. }
    assert (Cl : lit (glyphs u) c (fst p - x * s_gw z) (snd p - y * s_gh z) = true -> in_area (cell z x y) p = true).
    { intros H. apply lit_dot in H. destruct H as (i & j & D & E2 & E3). destruct (dot_inside u z c i j Gs D).
      apply in_area_spec. unfold cell, box. cbn [fst snd]. lia. }
    assert (Dis : in_area (cell z x y) p = true -> in_area (box ((x + 1) * s_gw z, y * s_gh z) (Z.of_nat (length text) * s_gw z) (s_gh z)) p = false).
    { intros H. apply in_area_spec in H. unfold cell, box, in_area in *. cbn [fst snd] in *. lia. }
    assert (Un : in_area (box (x * s_gw z, y * s_gh z) (Z.of_nat (length (c :: text)) * s_gw z) (s_gh z)) p =
                 in_area (cell z x y) p || in_area (box ((x + 1) * s_gw z, y * s_gh z) (Z.of_nat (length text) * s_gw z) (s_gh z)) p).
    { apply bool_ext. rewrite orb_true_iff, !in_area_spec. unfold cell, box. cbn [fst snd length]. nia. }
    rewrite Un. unfold P1.
    destruct (in_list (draw_text (glyphs u) ((x + 1) * s_gw z, y * s_gh z) text) p) eqn:T.
    + rewrite orb_true_r. reflexivity.
    + rewrite orb_false_r. destruct (in_area (cell z x y) p) eqn:C.
      * rewrite (Dis eq_refl). cbn [orb]. reflexivity.
      * cbn [orb]. destruct (lit (glyphs u) c (fst p - x * s_gw z) (snd p - y * s_gh z)) eqn:Li; [discriminate (Cl eq_refl)|reflexivity].
Qed.

Lemma plain_lcd u z g v pg seen sync d : plain u z (with_lcd g d) v pg seen sync -> c_fg (with_lcd g d) = c_fg g.
Proof. reflexivity. Qed.

(** One turn of the loop writes what fits. *)
Lemma write_here u z g v P x y seen sync text : good_sizes u z -> plain u z g v (P, x, y) seen sync ->
  text <> [] -> x + Z.of_nat (length text) <= cols z ->
  exists g', bind (on_lcd (draw_rect_filled (pixels_of u (c_cursor g)) (clamp_pos_u16 (Z.of_nat (length text) * gw u)) (gh u)) (ink u (c_bg g) g)) (fun g =>
            bind (on_lcd (write_text (glyphs u) (x * s_gw z, y * s_gh z) text) (ink u (c_fg g) g)) (fun g =>
            Some (with_cursor g (to_u16 (x + Z.of_nat (length text)), y)))) = Some g' /\
    plain u z g' v (type_text z (glyphs u) (fg_of u v) (bg_of u v) text (P, x, y)) seen sync.
Proof.
  intros Gs G Ne L. destruct (p_place _ _ _ _ _ _ _ G) as [X Y]. cbn [fst snd] in X, Y.
  assert (Ln : 1 <= Z.of_nat (length text)) by (destruct text; [contradiction|cbn [length]; lia]).
  pose proof (gs_gw u z Gs) as Ww. pose proof (gs_gh u z Gs) as Hh. pose proof (gs_max u z Gs) as M. pose proof (cols_pos u z Gs) as Cp.
  pose proof (cell_bounds u z x y Gs X Y) as Cb.
  rewrite (p_cursor _ _ _ _ _ _ _ G). cbn [fst snd]. rewrite (pixels_of_spec u z x y Gs X Y), <- (gs_w u z Gs), <- (gs_h u z Gs).
  assert (Cl : clamp_pos_u16 (Z.of_nat (length text) * s_gw z) = Z.of_nat (length text) * s_gw z).
  { unfold clamp_pos_u16. destruct (65535 <? Z.of_nat (length text) * s_gw z) eqn:E; [nia|reflexivity]. }
  rewrite Cl.
  destruct (plain_rect u z g v P x y seen sync (c_bg g) (x * s_gw z, y * s_gh z) (Z.of_nat (length text) * s_gw z) (s_gh z) G)
    as (d1 & E1 & G1); try (cbn [fst snd]; nia).
  unfold on_lcd at 1, ink at 1. cbn [with_lcd c_lcd]. rewrite E1. cbn [bind].
  destruct (plain_shape u z _ v _ x y seen sync (c_fg g) (draw_text (glyphs u) (x * s_gw z, y * s_gh z) text) G1) as (d2 & E2 & G2).
  unfold on_lcd, ink, write_text. cbn [with_lcd c_lcd c_fg] in *. rewrite E2. cbn [bind]. eexists. split; [reflexivity|].
  destruct (segment_spec u z (fg_of u v) (bg_of u v) y Gs Y text P x (proj1 X) L) as (P' & E & Sm). rewrite E.
  unfold to_u16. rewrite Z.mod_small by nia.
  rewrite (proj2 (p_fg _ _ _ _ _ _ _ G)), (proj2 (p_bg _ _ _ _ _ _ _ G)) in G2.
  apply (plain_ext _ _ _ _ (paint (in_list (draw_text (glyphs u) (x * s_gw z, y * s_gh z) text)) (fg_of u v)
           (paint (in_area (box (x * s_gw z, y * s_gh z) (Z.of_nat (length text) * s_gw z) (s_gh z))) (bg_of u v) P))).
  - apply (plain_cursor _ _ _ _ _ x y) with (x' := x + Z.of_nat (length text)) (y' := y) in G2; [exact G2|lia|lia].
  - intros p On. symmetry. apply Sm, On.
Qed.

Lemma next_line_place u z bg P x y : good_sizes u z -> 0 <= y < rows z ->
  exists P' y', next_line z bg (P, x, y) = (P', 0, y') /\ 0 <= y' < rows z.
Proof.
  intros Gs Y. unfold next_line. destruct (y + 1 <? rows z) eqn:E; [apply Z.ltb_lt in E|apply Z.ltb_ge in E].
  - exists P, (y + 1). split; [reflexivity|lia].
  - eexists _, y. split; [reflexivity|lia].
Qed.

Lemma write_loop_spec u z v seen sync : good_sizes u z -> forall n text g pg, plain u z g v pg seen sync ->
  (length text + (if (snd (fst pg) <? cols z)%Z then 0 else 1) < n)%nat ->
  exists g', write_loop u n text g = Some g' /\
    plain u z g' v (type_text z (glyphs u) (fg_of u v) (bg_of u v) text pg) seen sync.
Proof.
  intros Gs. induction n as [|n IH]; intros text g [[P x] y] G Fu; [lia|]. cbn [fst snd] in Fu.
  pose proof (cols_pos u z Gs) as Cp. pose proof (gs_gw u z Gs) as Ww. pose proof (gs_max u z Gs) as M.
  destruct (p_place _ _ _ _ _ _ _ G) as [X Y]. cbn [fst snd] in X, Y.
  cbn [write_loop]. rewrite (p_cursor _ _ _ _ _ _ _ G), (p_chars _ _ _ _ _ _ _ G). cbn [fst snd].
  assert (C' : cols z <= 32767) by nia.
  assert (Ft : to_u16 (cols z - x) = cols z - x) by (unfold to_u16; rewrite Z.mod_small; lia). rewrite Ft.
  set (fit := Z.to_nat (cols z - x)).
  assert (Px : pixels_of u (x, y) = (x * s_gw z, y * s_gh z)) by (apply pixels_of_spec; assumption). rewrite Px.
  assert (Hl : (length (firstn fit text) <= fit)%nat) by apply firstn_le_length.
  assert (Here : exists g1, (if 0 <? Z.of_nat (length (firstn fit text))
          then
            bind (on_lcd (draw_rect_filled (x * s_gw z, y * s_gh z) (clamp_pos_u16 (Z.of_nat (length (firstn fit text)) * gw u)) (gh u)) (ink u (c_bg g) g)) (fun g =>
            bind (on_lcd (write_text (glyphs u) (x * s_gw z, y * s_gh z) (firstn fit text)) (ink u (c_fg g) g)) (fun g =>
            Some (with_cursor g (to_u16 (x + Z.of_nat (length (firstn fit text))), y))))
          else Some g) = Some g1 /\ plain u z g1 v (type_text z (glyphs u) (fg_of u v) (bg_of u v) (firstn fit text) (P, x, y)) seen sync).
  { destruct (0 <? Z.of_nat (length (firstn fit text))) eqn:Z0; [apply Z.ltb_lt in Z0|apply Z.ltb_ge in Z0].
    - destruct (write_here u z g v P x y seen sync (firstn fit text) Gs G) as (g1 & E & G1).
      + intros E. rewrite E in Z0. cbn in Z0. lia.
      + unfold fit in *. lia.
      + rewrite (p_cursor _ _ _ _ _ _ _ G) in E. cbn [fst snd] in E. rewrite Px in E. exists g1. split; [exact E|exact G1].
    - exists g. split; [reflexivity|]. destruct (firstn fit text); [exact G|cbn [length] in Z0; lia]. }
  destruct Here as (g1 & E & G1). rewrite E. cbn [bind].
  assert (Sp : type_text z (glyphs u) (fg_of u v) (bg_of u v) text (P, x, y) =
               type_text z (glyphs u) (fg_of u v) (bg_of u v) (skipn fit text) (type_text z (glyphs u) (fg_of u v) (bg_of u v) (firstn fit text) (P, x, y))).
  { rewrite <- (firstn_skipn fit text) at 1. unfold type_text. apply fold_left_app. }
  destruct (skipn fit text) as [|c rest] eqn:Sk.
  - exists g1. split; [reflexivity|]. rewrite Sp. exact G1.
  - assert (Fl : length (firstn fit text) = fit).
    { apply firstn_length_le. destruct (Nat.le_gt_cases fit (length text)) as [H|H]; [exact H|]. rewrite skipn_all2 in Sk by lia. discriminate. }
    destruct (segment_spec u z (fg_of u v) (bg_of u v) y Gs Y (firstn fit text) P x (proj1 X)) as (P' & E' & _); [unfold fit in *; lia|].
    rewrite E', Fl in G1. replace (x + Z.of_nat fit) with (cols z) in G1 by (unfold fit; lia).
    destruct (open_line_spec u z g1 v P' (cols z) y seen sync Gs G1) as (g2 & E2 & G2). rewrite E2. cbn [bind].
    destruct (next_line_place u z (bg_of u v) P' (cols z) y Gs Y) as (P2 & y2 & Nl & Y2). rewrite Nl in G2.
    assert (Lr : length text = (fit + length (c :: rest))%nat) by (rewrite <- (firstn_skipn fit text) at 1; rewrite app_length, Fl, Sk; reflexivity).
    destruct (IH (c :: rest) g2 (P2, 0, y2) G2) as (g3 & E3 & G3).
    { cbn [fst snd]. destruct (0 <? cols z) eqn:C0; [|lia]. destruct (x <? cols z) eqn:Cx; [apply Z.ltb_lt in Cx|apply Z.ltb_ge in Cx]; unfold fit in *; lia. }
    exists g3. split; [exact E3|].
    rewrite Sp, E', Fl. replace (x + Z.of_nat fit) with (cols z) by (unfold fit; lia).
    assert (T : type_text z (glyphs u) (fg_of u v) (bg_of u v) (c :: rest) (P', cols z, y) =
                type_text z (glyphs u) (fg_of u v) (bg_of u v) (c :: rest) (P2, 0, y2)).
    { unfold type_text. cbn [fold_left]. f_equal. unfold type_char. cbn [fst snd]. destruct (cols z <? cols z) eqn:Q; [lia|]. destruct (0 <? cols z) eqn:Q2; [|lia].
      rewrite Nl. reflexivity. }
    rewrite T. exact G3.
Qed.

Lemma raw_write_spec u z v seen sync text g pg : good_sizes u z -> plain u z g v pg seen sync ->
  exists g', raw_write_wrapped u text g = Some g' /\
    plain u z g' v (type_text z (glyphs u) (fg_of u v) (bg_of u v) text pg) seen sync.
Proof.
  intros Gs G. destruct text as [|c text].
  - exists g. split; [|exact G]. unfold raw_write_wrapped. cbn [length Nat.mul Nat.add write_loop].
    destruct (c_cursor g). rewrite firstn_nil, skipn_nil. reflexivity.
  - apply write_loop_spec; [exact Gs|exact G|]. destruct (snd (fst pg) <? cols z); cbn [length]; lia.
Qed.

(** * Operations *)

Lemma show_place u z v P x y : v_x (show u z v (P, x, y)) = x /\ v_on (show u z v (P, x, y)) = v_on v.
Proof. split; reflexivity. Qed.

Lemma without_cursor_spec u z g v seen sync f pg : good_sizes u z -> agrees u z g (v, seen, sync) ->
  (forall g1, plain u z g1 v (page_of v) seen false -> exists g2, f g1 = Some g2 /\ plain u z g2 v pg seen false) ->
  cursor_fits z (show u z v pg) ->
  exists g', without_cursor u f g = Some g' /\
    agrees u z g' (show u z v pg, if sync then v_screen (show u z v pg) else seen, sync).
Proof.
  intros Gs G F Fi. unfold without_cursor.
  pose proof (proj1 (a_sync _ _ _ _ G)) as Sy. cbn [snd] in Sy. rewrite Sy.
  destruct (agrees_off u z g v seen sync G) as (g0 & -> & G0). cbn [bind].
  destruct (clear_cursor_spec u z g0 v seen false Gs G0) as (g1 & -> & G1). cbn [bind].
  destruct (F g1 G1) as (g2 & -> & G2). cbn [bind]. destruct pg as [[P x] y].
  destruct (draw_cursor_spec u z g2 v P x y seen false Gs G2) as (g3 & -> & G3); [intros On; apply Fi, On|]. cbn [bind].
  destruct sync.
  - destruct (agrees_on u z g3 _ _ _ G3) as (g4 & E & G4). exists g4. split; [exact E|exact G4].
  - destruct (agrees_off u z g3 _ _ _ G3) as (g4 & E & G4). exists g4. split; [exact E|exact G4].
Qed.

Lemma finish u z g v P x y seen sync : good_sizes u z -> plain u z g v (P, x, y) seen sync ->
  cursor_fits z (show u z v (P, x, y)) ->
  exists g', bind (draw_cursor u g) present = Some g' /\
    agrees u z g' (show u z v (P, x, y), if sync then v_screen (show u z v (P, x, y)) else seen, sync).
Proof.
  intros Gs G Fi. destruct (draw_cursor_spec u z g v P x y seen sync Gs G) as (g1 & -> & G1); [intros On; apply Fi, On|]. cbn [bind].
  destruct (present_agrees u z g1 _ _ _ G1) as (g2 & E & G2). exists g2. split; [exact E|]. destruct sync; exact G2.
Qed.

Lemma clear_all_spec u z g v seen sync : good_sizes u z -> agrees u z g (v, seen, sync) ->
  cursor_fits z (show u z v (fun _ => bg_of u v, 0, 0)) ->
  exists g', clear_con u All g = Some g' /\
    agrees u z g' (show u z v (fun _ => bg_of u v, 0, 0), if sync then v_screen (show u z v (fun _ => bg_of u v, 0, 0)) else seen, sync).
Proof.
  intros Gs [A1 A2 A3 A4 A5 A6 A7 A8 A9 A10 A11 A12 A13 A14 A15 A16] Fi. cbn [fst snd] in *. unfold clear_con.
  destruct (clear_becomes (set_draw_color (encode u (c_bg g)) (c_lcd g))) as (d' & E & B); [apply sound_color, A1|exact A2|].
  unfold on_lcd at 1, ink. cbn [with_lcd c_lcd]. rewrite E. cbn [bind].
  pose proof (rows_pos u z Gs). pose proof (cols_pos u z Gs).
  assert (D : forall p, on z p <-> on_display (set_draw_color (encode u (c_bg g)) (c_lcd g)) p) by (intros p; apply on_lcd_display; assumption).
  apply finish; [exact Gs| |exact Fi].
  constructor; cbn [with_lcd with_backup with_cursor c_lcd c_chars c_cursor c_visible c_backup c_ansi_fg c_ansi_bg c_fg c_bg c_alt c_sync fst snd]; auto.
  - apply (b_sound _ _ _ B).
  - apply (becomes_live _ _ _ B).
  - rewrite (b_width _ _ _ B). exact A3.
  - rewrite (b_height _ _ _ B). exact A4.
  - apply A6.
  - rewrite (b_sync _ _ _ B). apply A6.
  - lia.
  - intros p X. rewrite (b_canvas _ _ _ B) by (apply D, X). exact (proj2 A12).
  - intros p X. rewrite (b_shown _ _ _ B) by (apply D, X).
    change (l_sync (set_draw_color (encode u (c_bg g)) (c_lcd g))) with (l_sync (c_lcd g)). rewrite (proj2 A6).
    destruct sync; [exact (proj2 A12)|]. apply A14, X.
Qed.

Lemma agrees_seen u z g v seen seen' sync : agrees u z g (v, seen, sync) -> same_on z seen seen' -> agrees u z g (v, seen', sync).
Proof.
  intros [A1 A2 A3 A4 A5 A6 A7 A8 A9 A10 A11 A12 A13 A14 A15 A16] E. constructor; cbn [fst snd] in *; auto.
  intros p X. rewrite A14 by exact X. apply E, X.
Qed.

Lemma live_seen u z g v seen : agrees u z g (v, seen, true) -> same_on z seen (v_screen v).
Proof.
  intros [A1 A2 A3 A4 A5 A6 A7 A8 A9 A10 A11 A12 A13 A14 A15 A16]. cbn [fst snd] in *. intros p X.
  rewrite <- A13, <- A14 by exact X. apply A2; [apply A6|]. apply (on_lcd_display z); assumption.
Qed.

Lemma agrees_same u z g v seen sync : agrees u z g (v, seen, sync) ->
  agrees u z g (v, if sync then v_screen v else seen, sync).
Proof.
  intros G. apply (agrees_seen _ _ _ _ seen); [exact G|]. destruct sync; [|intros p _; reflexivity]. apply (live_seen u z g). exact G.
Qed.

(** Drawing over everything. *)
Lemma shape_agrees u z g v seen sync d' w : good_sizes u z -> agrees u z g (v, seen, sync) ->
  becomes (paint w (encode u (c_fg g)) (canvas (c_lcd g))) (set_draw_color (encode u (c_fg g)) (c_lcd g)) d' ->
  agrees u z (with_lcd g d') (draw_on u z v w, if sync then v_screen (draw_on u z v w) else seen, sync).
Proof.
  intros Gs [A1 A2 A3 A4 A5 A6 A7 A8 A9 A10 A11 A12 A13 A14 A15 A16] B. cbn [fst snd] in *.
  assert (D : forall p, on z p <-> on_display (set_draw_color (encode u (c_fg g)) (c_lcd g)) p) by (intros p; apply on_lcd_display; assumption).
  assert (Cv : forall p, on z p -> paint w (encode u (c_fg g)) (canvas (c_lcd g)) p = paint w (fg_of u v) (v_screen v) p).
  { intros p X. unfold paint. rewrite (proj2 A11), A13 by exact X. reflexivity. }
  constructor; cbn [with_lcd c_lcd c_chars c_cursor c_visible c_backup c_ansi_fg c_ansi_bg c_fg c_bg c_alt c_sync fst snd
                    draw_on v_under v_screen v_x v_y v_on v_fg v_bg v_alt]; auto.
  - apply (b_sound _ _ _ B).
  - apply (becomes_live _ _ _ B).
  - rewrite (b_width _ _ _ B). exact A3.
  - rewrite (b_height _ _ _ B). exact A4.
  - split; [apply A6|]. rewrite (b_sync _ _ _ B). apply A6.
  - intros p X. rewrite (b_canvas _ _ _ B) by (apply D, X). apply Cv, X.
  - intros p X. rewrite (b_shown _ _ _ B) by (apply D, X).
    change (l_sync (set_draw_color (encode u (c_fg g)) (c_lcd g))) with (l_sync (c_lcd g)). rewrite (proj2 A6).
    destruct sync; [apply Cv, X|]. apply A14, X.
  - destruct (v_on v) eqn:On.
    + destruct A15 as [Bk Out]. split.
      * rewrite Bk. f_equal. apply block_ext. intros p Ip. unfold paint.
        assert (Io : in_area (cell z (v_x v) (v_y v)) p = true).
        { apply in_area_spec in Ip. unfold clipped, box in Ip. cbn [fst snd] in Ip. apply in_area_spec. unfold cell, box. cbn [fst snd]. lia. }
        rewrite Io. cbn [andb negb]. rewrite andb_false_r. reflexivity.
      * intros p X Ip. unfold paint. rewrite Ip. cbn [andb negb]. rewrite andb_true_r. destruct (w p); [reflexivity|]. apply Out; assumption.
    + destruct A15 as [Bk Sm]. split; [exact Bk|]. intros p X. unfold paint. cbn [andb negb]. rewrite andb_true_r.
      destruct (w p); [reflexivity|]. apply Sm, X.
Qed.

Lemma printable_spec text : remove_control_chars text = printable text.
Proof.
  unfold remove_control_chars, printable. apply map_ext. intros c. unfold is_control.
  replace ((c <? 32) || ((127 <=? c) && (c <=? 159)))%N with ((c <? 32) || (c =? 127) || ((128 <=? c) && (c <? 160)))%N; [reflexivity|].
  apply bool_ext. rewrite !orb_true_iff, !andb_true_iff, !N.ltb_lt, !N.leb_le, N.eqb_eq. lia.
Qed.

Lemma box_rect_clamp u z y : good_sizes u z -> 0 <= y < rows z -> clamp_pos_i16 (y * gh u) = y * s_gh z.
Proof.
  intros Gs Y. pose proof (cols_pos u z Gs). pose proof (cell_bounds u z 0 y Gs ltac:(lia) Y). pose proof (gs_max u z Gs).
  pose proof (gs_gh u z Gs). rewrite <- (gs_h u z Gs). unfold clamp_pos_i16. destruct (32767 <? y * s_gh z) eqn:E; [lia|reflexivity].
Qed.

Lemma clear_spec u z g v seen sync how : good_sizes u z -> agrees u z g (v, seen, sync) -> fine u z (GClear how) v ->
  exists g', clear_con u how g = Some g' /\
    agrees u z g' (effect_on u z (GClear how) v, if sync then v_screen (effect_on u z (GClear how) v) else seen, sync).
Proof.
  intros Gs G [Fi Al]. destruct (a_place _ _ _ _ G) as [X Y]. cbn [fst snd] in X, Y.
  pose proof (cell_bounds u z (v_x v) (v_y v) Gs X Y) as Cb. pose proof (gs_gw u z Gs) as Ww. pose proof (gs_gh u z Gs) as Hh.
  pose proof (gs_max u z Gs) as M. pose proof (cols_pos u z Gs) as Cp. pose proof (rows_pos u z Gs) as Rp.
  destruct how; cbn [effect_on] in *.
  - apply clear_all_spec; assumption.
  - unfold clear_con. destruct (clear_cursor_spec u z g v seen sync Gs G) as (g1 & -> & G1). cbn [bind].
    unfold page_of in G1. rewrite (p_cursor _ _ _ _ _ _ _ G1), (p_w _ _ _ _ _ _ _ G1). cbn [fst snd].
    rewrite (box_rect_clamp u z (v_y v) Gs Y), <- (gs_h u z Gs).
    destruct (plain_rect u z g1 v _ _ _ seen sync (c_bg g1) (0, v_y v * s_gh z) (s_w z) (s_gh z) G1) as (d1 & E1 & G2); try (cbn [fst snd]; lia).
    unfold on_lcd at 1, ink. cbn [with_lcd c_lcd]. rewrite E1. cbn [bind]. rewrite (proj2 (p_bg _ _ _ _ _ _ _ G1)) in G2.
    cbn [with_lcd c_cursor]. rewrite (p_cursor _ _ _ _ _ _ _ G1). cbn [fst snd].
    apply finish; [exact Gs| |exact Fi]. apply (plain_cursor _ _ (with_lcd g1 d1) _ _ (v_x v) (v_y v)); [exact G2|lia|exact Y].
  - unfold clear_con. rewrite (a_cursor _ _ _ _ G). cbn [fst snd].
    destruct (0 <? v_x v) eqn:Z0; [apply Z.ltb_lt in Z0|apply Z.ltb_ge in Z0].
    + pose proof (cell_bounds u z (v_x v - 1) (v_y v) Gs ltac:(lia) Y) as Cb'.
      destruct (clear_cursor_spec u z g v seen sync Gs G) as (g1 & -> & G1). cbn [bind].
      unfold page_of in G1. rewrite (p_cursor _ _ _ _ _ _ _ G1). cbn [fst snd].
      rewrite (pixels_of_spec u z (v_x v - 1) (v_y v) Gs) by lia. rewrite <- (gs_w u z Gs), <- (gs_h u z Gs).
      destruct (plain_rect u z g1 v _ _ _ seen sync (c_bg g1) ((v_x v - 1) * s_gw z, v_y v * s_gh z) (s_gw z) (s_gh z) G1) as (d1 & E1 & G2); try (cbn [fst snd]; lia).
      unfold on_lcd at 1, ink. cbn [with_lcd c_lcd]. rewrite E1. cbn [bind]. rewrite (proj2 (p_bg _ _ _ _ _ _ _ G1)) in G2.
      apply finish; [exact Gs| |exact Fi]. apply (plain_cursor _ _ (with_lcd g1 d1) _ _ (v_x v) (v_y v)); [exact G2|lia|exact Y].
    + cbn [bind]. assert (On : v_on v = false) by (destruct (v_on v); [specialize (Al eq_refl); lia|reflexivity]).
      unfold draw_cursor. rewrite (a_visible _ _ _ _ G). cbn [fst]. rewrite On. cbn [negb bind].
      apply present_agrees, G.
  - unfold clear_con. destruct (clear_cursor_spec u z g v seen sync Gs G) as (g1 & -> & G1). cbn [bind].
    unfold page_of in G1. rewrite (p_cursor _ _ _ _ _ _ _ G1), (p_w _ _ _ _ _ _ _ G1). cbn [fst snd].
    rewrite (pixels_of_spec u z (v_x v) (v_y v) Gs X Y). cbn [fst snd].
    assert (Cl : clamp_u16 (s_w z - v_x v * s_gw z) = s_w z - v_x v * s_gw z).
    { unfold clamp_u16. destruct (65535 <? s_w z - v_x v * s_gw z) eqn:E1; [lia|]. destruct (s_w z - v_x v * s_gw z <? 0) eqn:E2; [lia|reflexivity]. }
    rewrite Cl, <- (gs_h u z Gs).
    destruct (plain_rect u z g1 v _ _ _ seen sync (c_bg g1) (v_x v * s_gw z, v_y v * s_gh z) (s_w z - v_x v * s_gw z) (s_gh z) G1) as (d1 & E1 & G2); try (cbn [fst snd]; lia).
    unfold on_lcd at 1, ink. cbn [with_lcd c_lcd]. rewrite E1. cbn [bind]. rewrite (proj2 (p_bg _ _ _ _ _ _ _ G1)) in G2.
    apply finish; [exact Gs|exact G2|exact Fi].
Qed.

Lemma show_eta u z v : show u z v (page_of v) = show u z v (v_under v, v_x v, v_y v).
Proof. reflexivity. Qed.

Lemma run_op_spec u z g s o : good_sizes u z -> agrees u z g s -> fine u z o (fst (fst s)) ->
  exists g', run_op u o g = Some (Ok g') /\ agrees u z g' (effect_of u z s o).
Proof.
  intros Gs G Fn. destruct s as [[v seen] sync]. cbn [fst] in Fn.
  assert (Lift : forall r v' seen', (exists g', r = Some g' /\ agrees u z g' (v', seen', sync)) ->
            exists g', always r = Some (Ok g') /\ agrees u z g' (v', seen', sync)).
  { intros r v' seen' (g' & -> & A). exists g'. split; [reflexivity|exact A]. }
  destruct (a_place _ _ _ _ G) as [X Y]. cbn [fst snd] in X, Y.
  destruct o as [how|fg bg| | |x y|off|text|text|l|p| | |b|]; unfold effect_of; cbn [run_op].
  - destruct (clear_spec u z g v seen sync how Gs G Fn) as (g' & E & A). exists g'. rewrite E. split; [reflexivity|]. destruct how; exact A.
  - apply Lift. eexists. split; [reflexivity|]. cbn [effect_on v_screen].
    apply agrees_same in G. destruct G as [A1 A2 A3 A4 A5 A6 A7 A8 A9 A10 A11 A12 A13 A14 A15 A16]. constructor; cbn [fst snd] in *; auto.
  - apply Lift. unfold hide_cursor. destruct (clear_cursor_spec u z g v seen sync Gs G) as (g1 & -> & G1). cbn [bind effect_on].
    destruct G1 as [A1 A2 A3 A4 A5 A6 A7 A8 A9 A10 A11 A12 A13 A14 A15 A16]. cbn [page_of fst snd] in *.
    set (v' := mkView (v_under v) (v_under v) (v_x v) (v_y v) false (v_fg v) (v_bg v) (v_alt v)).
    assert (G1 : agrees u z (with_visible g1 false) (v', if sync then v_screen v' else seen, sync)).
    { constructor; cbn [fst snd v' v_under v_screen v_x v_y v_on v_fg v_bg v_alt] in *; auto.
      - intros E. discriminate.
      - split; [exact A15|]. intros p _. reflexivity. }
    destruct (present_agrees u z _ _ _ _ G1) as (g2 & E & G2). exists g2. split; [exact E|]. destruct sync; exact G2.
  - apply Lift. unfold show_cursor. rewrite (a_visible _ _ _ _ G). cbn [fst]. destruct Fn as [Fi _]. cbn [effect_on] in *.
    destruct (v_on v) eqn:On.
    + cbn [bind]. apply present_agrees, G.
    + destruct (clear_cursor_spec u z g v seen sync Gs G) as (g1 & E1 & G1).
      assert (g1 = g) as -> by (unfold clear_cursor in E1; rewrite (a_visible _ _ _ _ G) in E1; cbn [fst] in E1; rewrite On in E1; cbn [negb] in E1; congruence).
      set (v' := mkView (v_under v) (v_under v) (v_x v) (v_y v) true (v_fg v) (v_bg v) (v_alt v)) in *.
      assert (G2 : plain u z (with_visible g true) v' (page_of v) seen sync).
      { destruct G1 as [A1 A2 A3 A4 A5 A6 A7 A8 A9 A10 A11 A12 A13 A14 A15 A16]. constructor; cbn [fst snd] in *; auto. }
      apply finish; [exact Gs|exact G2|exact Fi].
  - apply Lift. destruct Fn as [Fi [Fx Fy]]. apply without_cursor_spec; [exact Gs|exact G| |exact Fi].
    intros g1 G1. eexists. split; [reflexivity|]. apply (plain_cursor _ _ _ _ _ (v_x v) (v_y v)); [exact G1|lia|exact Fy].
  - apply Lift. destruct Fn as [Fi Fx]. apply without_cursor_spec; [exact Gs|exact G| |exact Fi].
    intros g1 G1. eexists. split; [reflexivity|]. rewrite (p_cursor _ _ _ _ _ _ _ G1). cbn [fst snd page_of].
    pose proof (cols_pos u z Gs). pose proof (gs_max u z Gs). pose proof (gs_gw u z Gs).
    unfold to_u16. rewrite Z.mod_small by nia. apply (plain_cursor _ _ _ _ _ (v_x v) (v_y v)); [exact G1|exact Fx|exact Y].
  - apply Lift. destruct Fn as [Fi _]. apply without_cursor_spec; [exact Gs|exact G| |exact Fi].
    intros g1 G1. rewrite printable_spec. destruct (raw_write_spec u z v seen false (printable text) g1 _ Gs G1) as (g2 & -> & G2). cbn [bind].
    destruct (type_text z (glyphs u) (fg_of u v) (bg_of u v) (printable text) (page_of v)) as [[P x] y].
    apply open_line_spec; assumption.
  - apply Lift. destruct Fn as [Fi _]. apply without_cursor_spec; [exact Gs|exact G| |exact Fi].
    intros g1 G1. rewrite printable_spec. apply raw_write_spec; assumption.
  - apply Lift. unfold draw_shape. cbn [effect_on].
    destruct (draw_all_becomes l (set_draw_color (encode u (c_fg g)) (c_lcd g))) as (d' & E & B); [apply sound_color, G|apply live_color, G|].
    unfold on_lcd, ink. cbn [with_lcd c_lcd]. rewrite E. cbn [bind].
    pose proof (shape_agrees u z g v seen sync d' _ Gs G B) as G1.
    destruct (present_agrees u z _ _ _ _ G1) as (g2 & E2 & G2). exists g2. split; [exact E2|]. destruct sync; exact G2.
  - apply Lift. unfold gdraw_pixel. cbn [effect_on].
    destruct (draw_pixel_becomes (set_draw_color (encode u (c_fg g)) (c_lcd g)) p) as (d' & E & B); [apply sound_color, G|apply live_color, G|].
    unfold on_lcd, ink. cbn [with_lcd c_lcd]. rewrite E. cbn [bind].
    pose proof (shape_agrees u z g v seen sync d' _ Gs G B) as G1.
    destruct (present_agrees u z _ _ _ _ G1) as (g2 & E2 & G2). exists g2. split; [exact E2|]. destruct sync; exact G2.
  - destruct Fn as [Fi Al]. unfold enter_alt.
    assert (Ca : c_alt g = None).
    { pose proof (a_alt _ _ _ _ G) as A. cbn [fst] in A. rewrite Al in A. destruct (c_alt g); [contradiction|reflexivity]. }
    rewrite Ca, (a_w _ _ _ _ G), (a_h _ _ _ _ G).
    pose proof (gs_gw u z Gs) as Ww. pose proof (gs_gh u z Gs) as Hh.
    assert (R : read_pixels (0, 0) (s_w z) (s_h z) (c_lcd g) = Some (block (box (0, 0) (s_w z) (s_h z)) (v_screen v))).
    { rewrite read_pixels_spec; [|apply G|].
      - f_equal. apply block_ext. intros p Ip. apply (a_canvas _ _ _ _ G). apply in_area_spec in Ip. unfold box in Ip. cbn [fst snd] in Ip.
        unfold on. lia.
      - unfold box_fits, on_display. rewrite (a_w _ _ _ _ G), (a_h _ _ _ _ G). cbn [fst snd]. lia. }
    rewrite R. cbn [bind effect_on].
    set (v' := mkView (v_under v) (v_screen v) (v_x v) (v_y v) (v_on v) (v_fg v) (v_bg v) (Some (v_screen v, (v_x v, v_y v), (v_fg v, v_bg v)))).
    assert (G1 : agrees u z (with_alt g (Some (block (box (0, 0) (s_w z) (s_h z)) (v_screen v), c_cursor g, (c_ansi_fg g, c_ansi_bg g), (c_fg g, c_bg g)))) (v', seen, sync)).
    { destruct G as [A1 A2 A3 A4 A5 A6 A7 A8 A9 A10 A11 A12 A13 A14 A15 A16]. constructor; cbn [fst snd] in *; auto.
      cbn [v' v_alt with_alt c_alt]. split; [reflexivity|]. split; [exact A7|]. split; [apply A11|]. split; [apply A12|].
      split; [exact X|]. split; [exact Y|]. split; [apply A11|apply A12]. }
    destruct (clear_all_spec u z _ v' seen sync Gs G1) as (g2 & E2 & G2); [exact Fi|]. rewrite E2. cbn [bind]. exists g2. split; [reflexivity|exact G2].
  - destruct Fn as [Fi Al]. unfold leave_alt. cbn [effect_on] in *.
    pose proof (a_alt _ _ _ _ G) as A. cbn [fst] in A.
    destruct (v_alt v) as [[[P [x y]] [fg bg]]|] eqn:Va; [|contradiction].
    destruct (c_alt g) as [[[[data pos] [fg' bg']] [cf cb]]|] eqn:Ca; [|contradiction].
    destruct A as (-> & -> & -> & -> & Px & Py & Ef & Eb).
    set (v0 := mkView (v_under v) (v_screen v) (v_x v) (v_y v) (v_on v) (v_fg v) (v_bg v) None).
    assert (G0 : agrees u z (with_alt g None) (v0, seen, sync)).
    { destruct G as [A1 A2 A3 A4 A5 A6 A7 A8 A9 A10 A11 A12 A13 A14 A15 A16]. constructor; cbn [fst snd] in *; auto; try exact I. }
    destruct (clear_cursor_spec u z _ v0 seen sync Gs G0) as (g1 & -> & G1). cbn [bind].
    rewrite (p_w _ _ _ _ _ _ _ G1), (p_h _ _ _ _ _ _ _ G1).
    pose proof (gs_gw u z Gs) as Ww. pose proof (gs_gh u z Gs) as Hh.
    destruct (put_pixels_becomes (c_lcd g1) (0, 0) (s_w z) (s_h z) (block (box (0, 0) (s_w z) (s_h z)) P) P) as (d' & E & B);
      [apply G1|apply G1| |reflexivity|].
    { unfold box_fits, on_display. rewrite (p_w _ _ _ _ _ _ _ G1), (p_h _ _ _ _ _ _ _ G1). cbn [fst snd]. lia. }
    unfold on_lcd. rewrite E. cbn [bind].
    set (v' := mkView (v_under v) (v_screen v) (v_x v) (v_y v) (v_on v) fg bg None) in *.
    assert (G2 : plain u z (with_lcd g1 d') v0 (P, v_x v, v_y v) seen sync).
    { destruct G1 as [A1 A2 A3 A4 A5 A6 A7 A8 A9 A10 A11 A12 A13 A14 A15 A16].
      assert (D : forall p, on z p <-> on_display (c_lcd g1) p) by (intros p; apply on_lcd_display; assumption).
      assert (In1 : forall p, on z p -> in_area (box (0, 0) (s_w z) (s_h z)) p = true).
      { intros p Op. apply in_area_spec. unfold box, on in *. cbn [fst snd]. lia. }
      constructor; cbn [with_lcd c_lcd c_chars c_cursor c_visible c_backup c_ansi_fg c_ansi_bg c_fg c_bg c_alt c_sync fst snd page_of] in *; auto.
      - apply (b_sound _ _ _ B).
      - apply (becomes_live _ _ _ B).
      - rewrite (b_width _ _ _ B). exact A3.
      - rewrite (b_height _ _ _ B). exact A4.
      - rewrite (b_sync _ _ _ B). exact A7.
      - intros p Op. rewrite (b_canvas _ _ _ B) by (apply D, Op). unfold paste. rewrite In1 by exact Op. reflexivity.
      - intros p Op. rewrite (b_shown _ _ _ B) by (apply D, Op). rewrite A7. unfold paste. rewrite In1 by exact Op.
        destruct sync; [reflexivity|]. apply A14, Op. }
    assert (G3 : plain u z (with_colors (with_cursor (with_lcd g1 d') (x, y)) fg bg cf cb) v' (P, x, y) seen sync).
    { apply (plain_cursor _ _ _ _ _ _ _ x y) in G2; [|exact Px|exact Py].
      destruct G2 as [A1 A2 A3 A4 A5 A6 A7 A8 A9 A10 A11 A12 A13 A14 A15 A16]. constructor; cbn [fst snd] in *; auto; try exact I. }
    destruct (finish u z _ v' P x y seen sync Gs G3 Fi) as (g4 & E4 & G4).
    destruct (draw_cursor u (with_colors (with_cursor (with_lcd g1 d') (x, y)) fg bg cf cb)) as [g5|]; [|discriminate]. cbn [bind] in *.
    rewrite E4. cbn [bind]. exists g4. split; [reflexivity|exact G4].
  - destruct b; cbn [effect_on].
    + destruct (agrees_on u z g v seen sync G) as (g' & E & A). exists g'. rewrite E. split; [reflexivity|exact A].
    + destruct (agrees_off u z g v seen sync G) as (g' & E & A). exists g'. rewrite E. split; [reflexivity|exact A].
  - apply Lift. unfold sync_now. pose proof (proj1 (a_sync _ _ _ _ G)) as Sy. cbn [snd] in Sy. rewrite Sy. cbn [effect_on]. destruct sync.
    + exists g. split; [reflexivity|]. exact (agrees_same _ _ _ _ _ _ G).
    + destruct (agrees_present u z g v seen false G) as (d' & E & A). unfold on_lcd. rewrite E. cbn [bind]. eauto.
Qed.

Lemma effect_view u z s o : fst (fst (effect_of u z s o)) = effect_on u z o (fst (fst s)).
Proof. destruct s as [[v seen] sync]. destruct o as [| | | | | | | | | | | |[]|]; reflexivity. Qed.

Lemma run_ops_spec u z ops : good_sizes u z -> forall g s, agrees u z g s -> all_fine u z ops (fst (fst s)) ->
  exists g', run_ops u ops g = Some g' /\ agrees u z g' (fold_left (effect_of u z) ops s).
Proof.
  intros Gs. induction ops as [|o ops IH]; intros g s G Fn.
  - exists g. split; [reflexivity|exact G].
  - destruct Fn as [F1 F2]. cbn [run_ops fold_left]. destruct (run_op_spec u z g s o Gs G F1) as (g1 & -> & G1).
    apply IH; [exact G1|]. rewrite effect_view. exact F2.
Qed.

(** * The start *)

Lemma new_con_spec u z zero white dev : good_sizes u z ->
  let P := fun _ : point => encode u (rgb_of (def_bg u)) in
  let v0 := mkView P P 0 0 true None None None in
  exists g, new_con u (new_lcd (s_w z) (s_h z) zero white dev) = Some g /\
    agrees u z g (show u z v0 (P, 0, 0), v_screen (show u z v0 (P, 0, 0)), true).
Proof.
  intros Gs P v0. pose proof (gs_gw u z Gs) as Ww. pose proof (gs_gh u z Gs) as Hh. pose proof (gs_max u z Gs) as M.
  pose proof (rows_pos u z Gs) as Rp. pose proof (cols_pos u z Gs) as Cp.
  destruct (start_spec (s_w z) (s_h z) zero white dev (encode u (rgb_of (def_bg u)))) as (d & E & So & L & W & H & (K1 & K2 & K3)); [lia|lia|].
  unfold new_con, clear_con, set_color, on_lcd at 1, ink. cbn [with_lcd with_colors c_lcd c_ansi_fg c_ansi_bg c_bg]. rewrite E. cbn [bind].
  assert (G : plain u z (mkCon d (s_w z / gw u, s_h z / gh u) (0, 0) true None None None (rgb_of (def_fg u)) (rgb_of (def_bg u)) None true)
                v0 (P, 0, 0) P true).
  { constructor; cbn [c_lcd c_chars c_cursor c_visible c_backup c_ansi_fg c_ansi_bg c_fg c_bg c_alt c_sync fst snd v0 v_on v_fg v_bg v_alt]; auto.
    - unfold cols, rows. rewrite (gs_w u z Gs), (gs_h u z Gs). reflexivity.
    - lia.
    - intros p X. apply K3. apply (on_lcd_display z d p W H), X.
    - intros p X. apply K3. apply (on_lcd_display z d p W H), X.
    - exact I. }
  destruct (finish u z _ v0 P 0 0 P true Gs G) as (g & E1 & G1); [intros _; cbn; lia|]. exists g. split; [exact E1|exact G1].
Qed.

(** * Where characters go *)

Lemma type_text_snoc z f fg bg text c pg : type_text z f fg bg (text ++ [c]) pg = type_char z f fg bg (type_text z f fg bg text pg) c.
Proof. unfold type_text. apply fold_left_app. Qed.

Lemma cell_disjoint z x y x' y' p : 0 < s_gw z -> 0 < s_gh z -> in_area (cell z x y) p = true -> in_area (cell z x' y') p = true -> x = x' /\ y = y'.
Proof. intros W H A B. apply in_area_spec in A, B. unfold cell, box in *. cbn [fst snd] in *. nia. Qed.

Lemma type_text_cells u z fg bg P y : good_sizes u z -> forall text,
  0 <= y -> y + (Z.of_nat (length text) - 1) / cols z < rows z -> y < rows z ->
  let n := Z.of_nat (length text) in
  exists P', type_text z (glyphs u) fg bg text (P, 0, y) =
      (P', if n =? 0 then 0 else (n - 1) mod cols z + 1, if n =? 0 then y else y + (n - 1) / cols z) /\
    (forall i c p, nth_error text i = Some c -> in_area (cell z (Z.of_nat i mod cols z) (y + Z.of_nat i / cols z)) p = true ->
       P' p = if lit (glyphs u) c (fst p - (Z.of_nat i mod cols z) * s_gw z) (snd p - (y + Z.of_nat i / cols z) * s_gh z) then fg else bg) /\
    (forall p, (forall i, (i < length text)%nat -> in_area (cell z (Z.of_nat i mod cols z) (y + Z.of_nat i / cols z)) p = false) -> P' p = P p).
Proof.
  intros Gs. pose proof (cols_pos u z Gs) as Cp. pose proof (gs_gw u z Gs) as Ww. pose proof (gs_gh u z Gs) as Hh.
  induction text as [|c text IH] using rev_ind; intros Y R Y' n.
  - exists P. cbn [type_text fold_left length] in *. subst n. cbn [length]. split; [reflexivity|]. split; [|reflexivity].
    intros [|i] c p E; discriminate.
  - subst n. rewrite app_length in *. cbn [length] in *.
    replace (Z.of_nat (length text + 1) - 1) with (Z.of_nat (length text)) in R |- * by lia.
    set (m := Z.of_nat (length text)) in *. assert (M0 : 0 <= m) by lia.
    destruct (Z.of_nat (length text + 1) =? 0) eqn:E0; [lia|].
    assert (Mono : (m - 1) / cols z <= m / cols z) by (apply Z.div_le_mono; lia).
    destruct IH as (P1 & E & A & B); [exact Y|lia|exact Y'|].
    rewrite type_text_snoc, E.
    assert (Pos : exists P1', type_char z (glyphs u) fg bg (P1, if m =? 0 then 0 else (m - 1) mod cols z + 1, if m =? 0 then y else y + (m - 1) / cols z) c =
        put_char z (glyphs u) fg bg c (P1', m mod cols z, y + m / cols z) /\ P1' = P1).
    { exists P1. split; [|reflexivity]. unfold type_char. cbn [fst snd].
      destruct (m =? 0) eqn:Em; [apply Z.eqb_eq in Em|apply Z.eqb_neq in Em].
      - rewrite Em. destruct (0 <? cols z) eqn:C0; [|lia]. rewrite Z.mod_0_l, Z.div_0_l by lia. f_equal. f_equal. lia.
      - pose proof (Z.div_mod (m - 1) (cols z) ltac:(lia)) as D. pose proof (Z.mod_pos_bound (m - 1) (cols z) ltac:(lia)) as Mb.
        destruct ((m - 1) mod cols z + 1 <? cols z) eqn:C1; [apply Z.ltb_lt in C1|apply Z.ltb_ge in C1].
        + assert (Q : m / cols z = (m - 1) / cols z) by (symmetry; apply (Z.div_unique _ _ _ ((m - 1) mod cols z + 1)); lia).
          assert (Q2 : m mod cols z = (m - 1) mod cols z + 1) by (symmetry; apply (Z.mod_unique _ _ ((m - 1) / cols z)); lia).
          rewrite Q, Q2. reflexivity.
        + assert (Q : m / cols z = (m - 1) / cols z + 1) by (symmetry; apply (Z.div_unique _ _ _ 0); lia).
          assert (Q2 : m mod cols z = 0) by (symmetry; apply (Z.mod_unique _ _ ((m - 1) / cols z + 1)); lia).
          unfold next_line. destruct (y + (m - 1) / cols z + 1 <? rows z) eqn:C2; [|lia]. rewrite Q, Q2. f_equal. f_equal. lia. }
    destruct Pos as (P1' & -> & ->). unfold put_char. eexists. split; [reflexivity|]. split.
    + intros i c' p Ni Ip. destruct (Nat.lt_ge_cases i (length text)) as [Hi|Hi].
      * rewrite nth_error_app1 in Ni by exact Hi.
        destruct (in_area (cell z (m mod cols z) (y + m / cols z)) p) eqn:Im.
        -- exfalso. destruct (cell_disjoint z _ _ _ _ p ltac:(lia) ltac:(lia) Ip Im) as [D1 D2].
           pose proof (Z.div_mod m (cols z) ltac:(lia)). pose proof (Z.div_mod (Z.of_nat i) (cols z) ltac:(lia)).
           assert (Z.of_nat i / cols z = m / cols z) as Q by lia. rewrite D1, Q in *. lia.
        -- apply (A i c' p Ni Ip).
      * rewrite nth_error_app2 in Ni by exact Hi. destruct (i - length text)%nat as [|k] eqn:Ek; [|destruct k; discriminate].
        assert (Ei : Z.of_nat i = m) by lia. rewrite Ei in *. cbn [nth_error] in Ni. assert (c = c') by congruence. subst c'.
        rewrite Ip. reflexivity.
    + intros p Out. assert (Im := Out (length text) ltac:(lia)). change (Z.of_nat (length text)) with m in Im. rewrite Im.
      apply B. intros i Hi. apply Out. lia.
Qed.
