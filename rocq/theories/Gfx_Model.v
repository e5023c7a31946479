(** The graphical console, /repo/std/src/console/graphics.rs, on top of an LCD of Lcd_Model.

    Lines cited as graphics.rs are of that file.  [None] is a panic.  Coordinates and sizes are those of
    a release build, where arithmetic wraps around and [debug_assert] does nothing.  Input/output errors
    of the device are not modelled, nor keys and sound, which go straight to other objects.  A console
    on a canvas other than [BufferedLcd] (SDL or a web page) is not modelled. *)
From Verif Require Import Base Colors_Model Draw_Model Lcd_Model.
Local Open Scope Z_scope.
Local Open Scope list_scope.

(** What does not change: how the device encodes a color (lcd/mod.rs [Lcd::encode]), the font, and the
    default colors of graphics.rs:307-311. *)
Record setup : Type := mkSetup { encode : rgb -> px; glyphs : font; def_fg : N; def_bg : N }.

(** The size of a glyph, graphics.rs:291-292. *)
Definition gw (u : setup) : Z := Z.of_nat (f_width (glyphs u)).
Definition gh (u : setup) : Z := Z.of_nat (f_height (glyphs u)).

(** graphics.rs:325-327 [alt_backup]: pixels, cursor, color numbers and colors. *)
Definition backup : Type := (list px * (Z * Z) * (option N * option N) * (rgb * rgb))%type.

(** graphics.rs:276-331 [GraphicsConsole].  The data of [cursor_backup] and [alt_backup] go with the
    size that was asked for, which is always the same one. *)
Record con : Type := mkCon {
  c_lcd : lcd;
  c_chars : Z * Z;
  c_cursor : Z * Z;
  c_visible : bool;
  c_backup : option (list px);
  c_ansi_fg : option N;
  c_ansi_bg : option N;
  c_fg : rgb;
  c_bg : rgb;
  c_alt : option backup;
  c_sync : bool
}.

Definition with_lcd (g : con) (x : lcd) : con :=
  mkCon x (c_chars g) (c_cursor g) (c_visible g) (c_backup g) (c_ansi_fg g) (c_ansi_bg g) (c_fg g) (c_bg g) (c_alt g) (c_sync g).
Definition with_cursor (g : con) (x : Z * Z) : con :=
  mkCon (c_lcd g) (c_chars g) x (c_visible g) (c_backup g) (c_ansi_fg g) (c_ansi_bg g) (c_fg g) (c_bg g) (c_alt g) (c_sync g).
Definition with_visible (g : con) (x : bool) : con :=
  mkCon (c_lcd g) (c_chars g) (c_cursor g) x (c_backup g) (c_ansi_fg g) (c_ansi_bg g) (c_fg g) (c_bg g) (c_alt g) (c_sync g).
Definition with_backup (g : con) (x : option (list px)) : con :=
  mkCon (c_lcd g) (c_chars g) (c_cursor g) (c_visible g) x (c_ansi_fg g) (c_ansi_bg g) (c_fg g) (c_bg g) (c_alt g) (c_sync g).
Definition with_colors (g : con) (fgn bgn : option N) (fg bg : rgb) : con :=
  mkCon (c_lcd g) (c_chars g) (c_cursor g) (c_visible g) (c_backup g) fgn bgn fg bg (c_alt g) (c_sync g).
Definition with_alt (g : con) (x : option backup) : con :=
  mkCon (c_lcd g) (c_chars g) (c_cursor g) (c_visible g) (c_backup g) (c_ansi_fg g) (c_ansi_bg g) (c_fg g) (c_bg g) x (c_sync g).
Definition with_csync (g : con) (x : bool) : con :=
  mkCon (c_lcd g) (c_chars g) (c_cursor g) (c_visible g) (c_backup g) (c_ansi_fg g) (c_ansi_bg g) (c_fg g) (c_bg g) (c_alt g) x.

(** graphics.rs:48-52, 78-82: conversions that clamp, of numbers that are not negative. *)
Definition clamp_pos_i16 (z : Z) : Z := if 32767 <? z then 32767 else z.
Definition clamp_pos_u16 (z : Z) : Z := if 65535 <? z then 65535 else z.
(** graphics.rs:66-76. *)
Definition clamp_u16 (z : Z) : Z := if 65535 <? z then 65535 else if z <? 0 then 0 else z.

(** graphics.rs:125-129 [clamped_mul] of a position. *)
Definition pixels_of (u : setup) (pos : Z * Z) : point :=
  (clamp_pos_i16 (fst pos * gw u), clamp_pos_i16 (snd pos * gh u)).

(** colors.rs [ansi_color_to_rgb]; the index is always in the table. *)
Definition rgb_of (color : N) : rgb :=
  match ansi_color_to_rgb color with Some c => c | None => (0, 0, 0)%N end.

(** Calls to the LCD. *)
Definition on_lcd (f : lcd -> option lcd) (g : con) : option con :=
  bind (f (c_lcd g)) (fun d => Some (with_lcd g d)).
Definition ink (u : setup) (c : rgb) (g : con) : con := with_lcd g (set_draw_color (encode u c) (c_lcd g)).

(** graphics.rs:378-381 [present_canvas]. *)
Definition present (g : con) : option con :=
  if c_sync g then on_lcd present_canvas g else Some g.

(** graphics.rs:383-403 [draw_cursor]. *)
Definition draw_cursor (u : setup) (g : con) : option con :=
  if negb (c_visible g) then Some g else
  let p := pixels_of u (c_cursor g) in
  match c_backup g with
  | Some _ => None
  | None =>
    bind (read_pixels p (gw u) (gh u) (c_lcd g)) (fun data =>
    on_lcd (draw_rect_filled p (gw u) (gh u)) (ink u (c_fg g) (with_backup g (Some data))))
  end.

(** graphics.rs:405-419 [clear_cursor]. *)
Definition clear_cursor (u : setup) (g : con) : option con :=
  if negb (c_visible g) then Some g else
  match c_backup g with
  | None => Some g
  | Some data =>
    bind (on_lcd (put_pixels (pixels_of u (c_cursor g)) data (gw u) (gh u)) g) (fun g =>
    Some (with_backup g None))
  end.

(** graphics.rs:421-447 [open_line]. *)
Definition open_line (u : setup) (g : con) : option con :=
  let (cx, cy) := c_cursor g in
  if cy <? to_u16 (snd (c_chars g) - 1) then Some (with_cursor g (0, to_u16 (cy + 1)))
  else
    let width := l_width (c_lcd g) in
    let height := l_height (c_lcd g) in
    let text_height := clamp_pos_u16 (snd (c_chars g) * gh u) in
    let g := ink u (c_bg g) g in
    bind (on_lcd (move_pixels (0, clamp_pos_i16 (gh u)) (0, 0) width (to_u16 (text_height - gh u))) g) (fun g =>
    bind (if text_height <? height
          then on_lcd (draw_rect_filled (0, clamp_pos_i16 text_height) width (to_u16 (height - text_height))) g
          else Some g) (fun g =>
    Some (with_cursor g (0, cy)))).

(** graphics.rs:449-487 [raw_write_wrapped]: at most [n] turns of its loop, which does not end in a
    console of no columns.  A text that is too long does not happen: [len] is at most [fit_chars]. *)
Fixpoint write_loop (u : setup) (n : nat) (text : ustr) (g : con) : option con :=
  match n with
  | O => None
  | S n =>
    let (cx, cy) := c_cursor g in
    let fit := Z.to_nat (to_u16 (fst (c_chars g) - cx)) in
    let here := firstn fit text in
    let remaining := skipn fit text in
    let len := Z.of_nat (length here) in
    bind (if 0 <? len
          then
            let xy := pixels_of u (c_cursor g) in
            bind (on_lcd (draw_rect_filled xy (clamp_pos_u16 (len * gw u)) (gh u)) (ink u (c_bg g) g)) (fun g =>
            bind (on_lcd (write_text (glyphs u) xy here) (ink u (c_fg g) g)) (fun g =>
            Some (with_cursor g (to_u16 (cx + len), cy))))
          else Some g) (fun g =>
    match remaining with
    | [] => Some g
    | _ => bind (open_line u g) (write_loop u n remaining)
    end)
  end.
Definition raw_write_wrapped (u : setup) (text : ustr) : con -> option con :=
  write_loop u (2 * length text + 1) text.

Inductive clear_type : Type := All | CurrentLine | PreviousChar | UntilNewLine.

(** graphics.rs:497-539 [clear]. *)
Definition clear_con (u : setup) (how : clear_type) (g : con) : option con :=
  bind
    match how with
    | All =>
      bind (on_lcd clear (ink u (c_bg g) g)) (fun g => Some (with_backup (with_cursor g (0, 0)) None))
    | CurrentLine =>
      bind (clear_cursor u g) (fun g =>
      let xy := (0, clamp_pos_i16 (snd (c_cursor g) * gh u)) in
      bind (on_lcd (draw_rect_filled xy (l_width (c_lcd g)) (gh u)) (ink u (c_bg g) g)) (fun g =>
      Some (with_cursor g (0, snd (c_cursor g)))))
    | PreviousChar =>
      if 0 <? fst (c_cursor g) then
        bind (clear_cursor u g) (fun g =>
        let previous := (fst (c_cursor g) - 1, snd (c_cursor g)) in
        bind (on_lcd (draw_rect_filled (pixels_of u previous) (gw u) (gh u)) (ink u (c_bg g) g)) (fun g =>
        Some (with_cursor g previous)))
      else Some g
    | UntilNewLine =>
      bind (clear_cursor u g) (fun g =>
      let pos := pixels_of u (c_cursor g) in
      on_lcd (draw_rect_filled pos (clamp_u16 (l_width (c_lcd g) - fst pos)) (gh u)) (ink u (c_bg g) g))
    end (fun g =>
  bind (draw_cursor u g) present).

(** graphics.rs:545-551 [set_color]. *)
Definition set_color (u : setup) (fg bg : option N) (g : con) : con :=
  with_colors g fg bg
    (rgb_of match fg with Some c => c | None => def_fg u end)
    (rgb_of match bg with Some c => c | None => def_bg u end).

(** graphics.rs:340-376 [new] with the size of lcd/fonts/mod.rs:65-75 [chars_in_area]. *)
Definition new_con (u : setup) (d : lcd) : option con :=
  let g := mkCon d (l_width d / gw u, l_height d / gh u) (0, 0) true None None None
             (rgb_of (def_fg u)) (rgb_of (def_bg u)) None true in
  clear_con u All (set_color u (c_ansi_fg g) (c_ansi_bg g) g).

(** graphics.rs:553-572 [enter_alt]; [Err] is the error for an alternate screen in another one. *)
Definition enter_alt (u : setup) (g : con) : option (res unit con) :=
  match c_alt g with
  | Some _ => Some (Err tt)
  | None =>
    bind (read_pixels (0, 0) (l_width (c_lcd g)) (l_height (c_lcd g)) (c_lcd g)) (fun pixels =>
    let saved := (pixels, c_cursor g, (c_ansi_fg g, c_ansi_bg g), (c_fg g, c_bg g)) in
    bind (clear_con u All (with_alt g (Some saved))) (fun g => Some (Ok g)))
  end.

(** graphics.rs:584-610 [leave_alt]. *)
Definition leave_alt (u : setup) (g : con) : option (res unit con) :=
  match c_alt g with
  | None => Some (Err tt)
  | Some (pixels, cursor, (fgn, bgn), (fg, bg)) =>
    bind (clear_cursor u (with_alt g None)) (fun g =>
    bind (on_lcd (put_pixels (0, 0) pixels (l_width (c_lcd g)) (l_height (c_lcd g))) g) (fun g =>
    bind (draw_cursor u (with_colors (with_cursor g cursor) fgn bgn fg bg)) (fun g =>
    bind (present g) (fun g => Some (Ok g)))))
  end.

(** graphics.rs:574-578 [hide_cursor]. *)
Definition hide_cursor (u : setup) (g : con) : option con :=
  bind (clear_cursor u g) (fun g => present (with_visible g false)).

(** graphics.rs:661-670 [show_cursor]. *)
Definition show_cursor (u : setup) (g : con) : option con :=
  bind (if c_visible g then Some g else draw_cursor u (with_visible g true)) present.

(** graphics.rs:813-821 [set_sync], without its result. *)
Definition set_csync (enabled : bool) (g : con) : option con :=
  bind (if negb (c_sync g) && enabled then on_lcd present_canvas g else Some g) (fun g =>
  Some (with_lcd (with_csync g enabled) (set_sync enabled (c_lcd g)))).

(** graphics.rs:616-621, 625-634, 640-646, 687-692: with the cursor out of the way. *)
Definition without_cursor (u : setup) (f : con -> option con) (g : con) : option con :=
  bind (set_csync false g) (fun g0 =>
  bind (clear_cursor u g0) (fun g1 =>
  bind (f g1) (fun g2 =>
  bind (draw_cursor u g2) (set_csync (c_sync g))))).

(** graphics.rs:612-622 [locate]. *)
Definition locate (u : setup) (pos : Z * Z) : con -> option con :=
  without_cursor u (fun g => Some (with_cursor g pos)).

(** graphics.rs:624-635 [move_within_line]. *)
Definition move_within_line (u : setup) (off : Z) : con -> option con :=
  without_cursor u (fun g => Some (with_cursor g (to_u16 (fst (c_cursor g) + off), snd (c_cursor g)))).

(** console/mod.rs:423-443 [remove_control_chars], for the characters of [char::is_control]. *)
Definition is_control (c : N) : bool := ((c <? 32) || ((127 <=? c) && (c <=? 159)))%N.
Definition remove_control_chars (text : ustr) : ustr := map (fun c => if is_control c then 32%N else c) text.

(** graphics.rs:637-647 [print]. *)
Definition print (u : setup) (text : ustr) : con -> option con :=
  without_cursor u (fun g => bind (raw_write_wrapped u (remove_control_chars text) g) (open_line u)).

(** graphics.rs:684-693 [write]. *)
Definition write (u : setup) (text : ustr) : con -> option con :=
  without_cursor u (raw_write_wrapped u (remove_control_chars text)).

(** graphics.rs:695-803: primitives that paint pixels in the foreground color. *)
Definition draw_shape (u : setup) (l : list point) (g : con) : option con :=
  bind (on_lcd (draw_all l) (ink u (c_fg g) g)) present.

(** graphics.rs:720-724 [draw_pixel]. *)
Definition gdraw_pixel (u : setup) (p : point) (g : con) : option con :=
  bind (on_lcd (draw_pixel p) (ink u (c_fg g) g)) present.

(** graphics.rs:714-718 [draw_line]. *)
Definition gdraw_line (u : setup) (p1 p2 : point) : con -> option con := draw_shape u (draw_line p1 p2).

(** graphics.rs:780-788, 790-803 [draw_tri], [draw_tri_filled]. *)
Definition gdraw_tri (u : setup) (filled : bool) (p1 p2 p3 : point) (g : con) : option con :=
  if tri_points p1 p2 p3
  then draw_shape u (if filled then draw_tri_filled p1 p2 p3 else draw_tri p1 p2 p3) g
  else Some g.

(** graphics.rs:726-760 [draw_poly], [draw_poly_filled]. *)
Definition gdraw_poly (u : setup) (filled : bool) (points : list point) (g : con) : option con :=
  match points with
  | [] => Some g
  | [p] => gdraw_pixel u p g
  | [p1; p2] => gdraw_line u p1 p2 g
  | [p1; p2; p3] => gdraw_tri u filled p1 p2 p3 g
  | _ =>
    if poly_points points
    then draw_shape u (if filled then draw_poly_filled points else draw_poly points) g
    else Some g
  end.

(** graphics.rs:762-778 [draw_rect], [draw_rect_filled]. *)
Definition gdraw_rect (u : setup) (filled : bool) (p1 p2 : point) (g : con) : option con :=
  let g := ink u (c_fg g) g in
  bind match rect_points p1 p2 with
       | Some (p, w, h) => on_lcd (if filled then draw_rect_filled p w h else draw_all (draw_rect p w h)) g
       | None => on_lcd (draw_all (draw_line p1 p2)) g
       end present.

(** graphics.rs:702-712 [draw_circle], [draw_circle_filled]; [Err] is the error for a radius that is
    too big, and the color has been set by then. *)
Definition gdraw_circle (u : setup) (filled : bool) (center : point) (radius : Z) (g : con) : option (res unit con) :=
  match (if filled then draw_circle_filled center radius else draw_circle center radius) with
  | Err e => Some (Err e)
  | Ok None => None
  | Ok (Some l) => bind (draw_shape u l g) (fun g => Some (Ok g))
  end.

(** graphics.rs:695-700 [bucket_fill], at most [n] pixels; [Some None] is not done yet. *)
Definition gbucket_fill (u : setup) (p : point) (n : nat) (g : con) : option (option con) :=
  let color := match c_ansi_fg g with Some c => c | None => def_fg u end in
  bind (bucket_fill (encode u) p color n (set_draw_color (encode u (c_fg g)) (c_lcd g))) (fun r =>
  match r with
  | None => Some None
  | Some d => bind (present (with_lcd g d)) (fun g => Some (Some g))
  end).

(** graphics.rs:805-807 [peek_pixel]. *)
Definition gpeek_pixel (u : setup) (p : point) (g : con) : option (option N) := peek_pixel (encode u) p (c_lcd g).

(** graphics.rs:809-811 [sync_now]. *)
Definition sync_now (g : con) : option con :=
  if c_sync g then Some g else on_lcd present_canvas g.
