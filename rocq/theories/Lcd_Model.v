(** Model of the buffered display, /repo/std/src/gfx/lcd/buffered/mod.rs, and of bucket_fill in
    /repo/std/src/console/drawing.rs.

    Simplifications, all over this file:
    - A pixel is its list of bytes and the buffers are lists of pixels, so addresses count pixels and
      not bytes.
    - [None] is a panic.  I/O errors of the device are left out.
    - The assertions that only exist in debug builds are left out, and the arithmetic that they guard
      wraps around as in release builds. *)
From Verif Require Import Base Colors_Model Draw_Model.
Local Open Scope Z_scope.
Local Open Scope list_scope.

(** The bytes of a pixel, as given by the device. *)
Definition px : Type := list N.

(** A position in the display. *)
Definition area : Type := (Z * Z) * (Z * Z).

(** mod.rs:37-52 [BufferedLcd].  [l_dev] is what the device shows: its memory, which the code can only
    write. *)
Record lcd : Type := mkLcd {
  l_width : Z;
  l_height : Z;
  l_fb : list px;
  l_dev : Z -> Z -> px;
  l_sync : bool;
  l_damage : option area;
  l_color : px
}.

Definition with_fb (d : lcd) (fb : list px) : lcd :=
  mkLcd (l_width d) (l_height d) fb (l_dev d) (l_sync d) (l_damage d) (l_color d).
Definition with_dev (d : lcd) (dev : Z -> Z -> px) : lcd :=
  mkLcd (l_width d) (l_height d) (l_fb d) dev (l_sync d) (l_damage d) (l_color d).
Definition with_sync (d : lcd) (sync : bool) : lcd :=
  mkLcd (l_width d) (l_height d) (l_fb d) (l_dev d) sync (l_damage d) (l_color d).
Definition with_damage (d : lcd) (damage : option area) : lcd :=
  mkLcd (l_width d) (l_height d) (l_fb d) (l_dev d) (l_sync d) damage (l_color d).
Definition with_color (d : lcd) (color : px) : lcd :=
  mkLcd (l_width d) (l_height d) (l_fb d) (l_dev d) (l_sync d) (l_damage d) color.

(** Sequences of things that can panic. *)
Definition bind {A B} (a : option A) (f : A -> option B) : option B :=
  match a with Some a => f a | None => None end.

Fixpoint all_some {A} (l : list (option A)) : option (list A) :=
  match l with
  | [] => Some []
  | None :: _ => None
  | Some a :: r => option_map (cons a) (all_some r)
  end.

Fixpoint do_all {A S} (f : A -> S -> option S) (l : list A) (s : S) : option S :=
  match l with
  | [] => Some s
  | a :: r => bind (f a s) (do_all f r)
  end.

(** The numbers [a..(b + 1)]. *)
Definition range (a b : Z) : list Z := map (fun i => a + Z.of_nat i) (seq 0 (Z.to_nat (b + 1 - a))).

(** gfx/lcd/mod.rs:56-58 [Lcd::set_data]: the device shows the pixels in the window, by rows.  This is
    what the code expects from a device. *)
Definition set_data (a : area) (data : list px) (dev : Z -> Z -> px) : Z -> Z -> px :=
  let '((x1, y1), (x2, y2)) := a in
  fun x y =>
    if (x1 <=? x) && (x <=? x2) && (y1 <=? y) && (y <=? y2)
    then nth (Z.to_nat ((y - y1) * (x2 - x1 + 1) + (x - x1))) data (dev x y)
    else dev x y.

(** mod.rs:61-96 [new], for a device that shows [dev] and encodes white as [white]. *)
Definition new_lcd (width height : Z) (zero white : px) (dev : Z -> Z -> px) : lcd :=
  mkLcd width height (repeat zero (Z.to_nat (width * height))) dev true None white.

(** mod.rs:123-142 [clip_xy]. *)
Definition clip (value max : Z) : option Z :=
  if value <? 0 then None else if max <? value then None else Some value.
Definition clip_xy (d : lcd) (p : point) : option (Z * Z) :=
  match clip (fst p) (l_width d - 1), clip (snd p) (l_height d - 1) with
  | Some x, Some y => Some (x, y)
  | _, _ => None
  end.

(** mod.rs:145-159 [clamp_xy]. *)
Definition clamp (value max : Z) : Z :=
  if value <? 0 then 0 else if max <? value then max else value.
Definition clamp_xy (d : lcd) (p : point) : Z * Z :=
  (clamp (fst p) (l_width d - 1), clamp (snd p) (l_height d - 1)).

(** mod.rs:163-185 [clip_x2y2]. *)
Definition clip2 (value delta max : Z) : option Z :=
  let value := value + delta in
  if value <? 0 then None else if max <? value then Some max else Some value.
Definition clip_x2y2 (d : lcd) (p : point) (w h : Z) : option (Z * Z) :=
  match clip2 (fst p) (to_u16 (w - 1)) (l_width d - 1), clip2 (snd p) (to_u16 (h - 1)) (l_height d - 1) with
  | Some x, Some y => Some (x, y)
  | _, _ => None
  end.

(** mod.rs:226-230 [fb_addr], in pixels. *)
Definition fb_addr (d : lcd) (x y : Z) : nat := Z.to_nat (y * l_width d + x).

(** mod.rs:237-265 [damage]. *)
Definition add_damage (d : lcd) (a : area) : lcd :=
  match l_damage d with
  | None => with_damage d (Some a)
  | Some ((x1, y1), (x2, y2)) =>
    let '((x1', y1'), (x2', y2')) := a in
    with_damage d (Some (
      (if x1' <? x1 then x1' else x1, if y1' <? y1 then y1' else y1),
      (if x2 <? x2' then x2' else x2, if y2 <? y2' then y2' else y2)))
  end.

(** [copy_from_slice] of some pixels at an offset of the frame buffer. *)
Definition copy_at (offset : nat) (pixels fb : list px) : option (list px) :=
  if (offset + length pixels <=? length fb)%nat
  then Some (firstn offset fb ++ pixels ++ skipn (offset + length pixels) fb)
  else None.

(** mod.rs:272-303 [fill]. *)
Definition fill (a : area) (d : lcd) : option lcd :=
  let '((x1, y1), (x2, y2)) := a in
  let row := repeat (l_color d) (Z.to_nat (x2 - x1 + 1)) in
  bind (do_all (fun y fb => copy_at (fb_addr d x1 y) row fb) (range y1 y2) (l_fb d)) (fun fb =>
  let d := with_fb d fb in
  if l_sync d
  then Some (with_dev d (set_data a (flat_map (fun _ => row) (range y1 y2)) (l_dev d)))
  else Some (add_damage d a)).

(** mod.rs:312-318 and 389-394: the pixels of an area of the frame buffer. *)
Definition read_area (d : lcd) (a : area) : option (list px) :=
  let '((x1, y1), (x2, y2)) := a in
  all_some (flat_map (fun y => map (fun x => nth_error (l_fb d) (fb_addr d x y)) (range x1 x2)) (range y1 y2)).

(** mod.rs:306-332 [force_present_canvas]. *)
Definition force_present_canvas (d : lcd) : option lcd :=
  match l_damage d with
  | None => Some d
  | Some a =>
    bind (read_area d a) (fun data => Some (with_damage (with_dev d (set_data a data (l_dev d))) None))
  end.

(** mod.rs:99-119 [without_sync]. *)
Definition without_sync (ops : lcd -> option lcd) (d : lcd) : option lcd :=
  if l_sync d then bind (ops (with_sync d false)) (fun d => force_present_canvas (with_sync d true))
  else ops d.

(** mod.rs:359-361 [set_draw_color]. *)
Definition set_draw_color (color : px) (d : lcd) : lcd := with_color d color.

(** mod.rs:363-368 [clear]. *)
Definition clear (d : lcd) : option lcd := fill ((0, 0), (l_width d - 1, l_height d - 1)) d.

(** mod.rs:370-372 [set_sync]. *)
Definition set_sync (enabled : bool) (d : lcd) : lcd := with_sync d enabled.

(** mod.rs:374-376 [present_canvas]. *)
Definition present_canvas (d : lcd) : option lcd :=
  if l_sync d then Some d else force_present_canvas d.

(** Equality of bytes. *)
Fixpoint px_eqb (a b : px) : bool :=
  match a, b with
  | [], [] => true
  | x :: a, y :: b => (x =? y)%N && px_eqb a b
  | _, _ => false
  end.

(** mod.rs:73-80: the table of the pixels of all the colors; the first color of a pixel stays. *)
Fixpoint first_color (encode : rgb -> px) (p : px) (i : N) (l : list rgb) : option N :=
  match l with
  | [] => None
  | c :: r => if px_eqb (encode c) p then Some i else first_color encode p (i + 1) r
  end.
Definition ansi_of (encode : rgb -> px) (p : px) : option N := first_color encode p 0 colors.

(** mod.rs:378-387 [peek_pixel].  The outer [None] is a panic. *)
Definition peek_pixel (encode : rgb -> px) (p : point) (d : lcd) : option (option N) :=
  match clip_xy d p with
  | None => Some None
  | Some (x, y) => option_map (ansi_of encode) (nth_error (l_fb d) (fb_addr d x y))
  end.

(** mod.rs:389-408 [read_pixels]. *)
Definition read_pixels (p : point) (w h : Z) (d : lcd) : option (list px) :=
  bind (clip_xy d p) (fun x1y1 => bind (clip_x2y2 d p w h) (fun x2y2 => read_area d (x1y1, x2y2))).

(** mod.rs:421-428: the pixels go to the positions one by one. *)
Fixpoint put_loop (d : lcd) (where_ : list (Z * Z)) (pixels fb : list px) : option (list px) :=
  match where_ with
  | [] => Some fb
  | (x, y) :: r =>
    match pixels with
    | [] => None
    | p :: pixels => bind (copy_at (fb_addr d x y) [p] fb) (put_loop d r pixels)
    end
  end.

(** mod.rs:410-437 [put_pixels]. *)
Definition put_pixels (p : point) (pixels : list px) (w h : Z) (d : lcd) : option lcd :=
  bind (clip_xy d p) (fun x1y1 => bind (clip_x2y2 d p w h) (fun x2y2 =>
  let a := (x1y1, x2y2) in
  bind (put_loop d (flat_map (fun y => map (fun x => (x, y)) (range (fst x1y1) (fst x2y2)))
                             (range (snd x1y1) (snd x2y2))) pixels (l_fb d)) (fun fb =>
  let d := with_fb d fb in
  if l_sync d then Some (with_dev d (set_data a pixels (l_dev d)))
  else Some (add_damage d a)))).

(** mod.rs:475-481 [draw_pixel]. *)
Definition draw_pixel (p : point) (d : lcd) : option lcd :=
  match clip_xy d p with
  | Some xy => fill (xy, xy) d
  | None => Some d
  end.

(** mod.rs:457-473, 483-493, 504-516: a primitive of Draw_Model, from its pixels. *)
Definition draw_all (l : list point) : lcd -> option lcd := without_sync (do_all draw_pixel l).

(** mod.rs:495-502 [draw_rect_filled]. *)
Definition draw_rect_filled (p : point) (w h : Z) (d : lcd) : option lcd :=
  match clip_x2y2 d p w h with
  | Some x2y2 => fill (clamp_xy d p, x2y2) d
  | None => Some d
  end.

(** mod.rs:439-455 [move_pixels]. *)
Definition move_pixels (p1 p2 : point) (w h : Z) (d : lcd) : option lcd :=
  bind (read_pixels p1 w h d) (fun data =>
  without_sync (fun d => bind (draw_rect_filled p1 w h d) (put_pixels p2 data w h)) d).

(** mod.rs:453-455 [write_text]. *)
Definition write_text (f : font) (p : point) (text : ustr) : lcd -> option lcd := draw_all (draw_text f p text).

(** mod.rs:336-344 [drop]. *)
Definition drop_lcd (black : px) (d : lcd) : option lcd := clear (set_draw_color black d).

(** drawing.rs:146-157: the neighbours of a point, in the order in which they are taken out. *)
Definition neighbours (p : point) : list point :=
  let (x, y) := p in
  (if y <? 32767 then [(x, y + 1)] else []) ++ (if -32768 <? y then [(x, y - 1)] else []) ++
  (if x <? 32767 then [(x + 1, y)] else []) ++ (if -32768 <? x then [(x - 1, y)] else []).

(** drawing.rs:139-158: the loop of [bucket_fill], at most [n] times; [None] is a panic and [Some None]
    is not done yet. *)
Fixpoint fill_loop (encode : rgb -> px) (seed : N) (n : nat) (pending : list point) (d : lcd) : option (option lcd) :=
  match pending with
  | [] => Some (Some d)
  | p :: rest =>
    match n with
    | O => Some None
    | S n =>
      bind (peek_pixel encode p d) (fun c =>
      if match c with Some c => (c =? seed)%N | None => false end
      then bind (draw_pixel p d) (fill_loop encode seed n (neighbours p ++ rest))
      else fill_loop encode seed n rest d)
    end
  end.

(** drawing.rs:126-161 [bucket_fill]. *)
Definition bucket_fill (encode : rgb -> px) (p : point) (color : N) (n : nat) (d : lcd) : option (option lcd) :=
  bind (peek_pixel encode p d) (fun c =>
  match c with
  | None => Some (Some d)
  | Some seed => if (seed =? color)%N then Some (Some d) else fill_loop encode seed n [p] d
  end).
