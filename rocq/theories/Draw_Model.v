(** Model of the drawing primitives: /repo/std/src/console/drawing.rs.

    Simplifications, all over this file:
    - A primitive is the list of the pixels it draws, in order.  The primitives only know the surface
      through [draw_pixel] and [draw_line], and the surfaces draw lines with [draw_line] of this file,
      so nothing else matters.  [bucket_fill], which also reads pixels, is in Lcd_Model.
    - I/O errors of the surface are left out.
    - Machine arithmetic wraps around, as in release builds, and so do the conversions to [i16] that
      are checked in debug builds. *)
From Verif Require Import Base.
Local Open Scope Z_scope.
Local Open Scope list_scope.

(** /repo/std/src/console/mod.rs:151-157 [PixelsXY]. *)
Definition point : Type := (Z * Z)%type.

(** Values of the type [i16] and [i32]. *)
Definition to_i16 (z : Z) : Z := (z + 32768) mod 65536 - 32768.
Definition to_i32 (z : Z) : Z := (z + 2147483648) mod 4294967296 - 2147483648.

(** /repo/std/src/console/graphics.rs:54-64 [clamped_into] from [i32] to [i16]. *)
Definition clamp_i16 (z : Z) : Z :=
  if 32767 <? z then 32767 else if z <? -32768 then -32768 else to_i16 z.

(** * Lines *)

(** drawing.rs:40-55: the loop of [draw_line_low], for [n] values of [x]; the coordinates and the
    error of each step. *)
Fixpoint low_loop (n : nat) (x y d yi dx dy : Z) : list (Z * Z * Z) :=
  match n with
  | O => []
  | S n =>
    (x, y, d) ::
    (if 0 <? d then low_loop n (x + 1) (to_i32 (y + yi)) (to_i32 (d + 2 * (dy - dx))) yi dx dy
     else low_loop n (x + 1) y (to_i32 (d + 2 * dy)) yi dx dy)
  end.

(** drawing.rs:25-58 [draw_line_low]. *)
Definition draw_line_low (x1 y1 x2 y2 : Z) : list point :=
  let dx := to_i32 (x2 - x1) in
  let dy := to_i32 (y2 - y1) in
  let yi := if dy <? 0 then -1 else 1 in
  let dy := if dy <? 0 then to_i32 (- dy) else dy in
  let d := to_i32 (2 * dy - dx) in
  map (fun '(x, y, _) => (to_i16 x, to_i16 y))
    (low_loop (Z.to_nat (x2 + 1 - x1)) x1 y1 d yi dx dy).

(** drawing.rs:76-91: the loop of [draw_line_high], for [n] values of [y]. *)
Fixpoint high_loop (n : nat) (x y d xi dx dy : Z) : list (Z * Z * Z) :=
  match n with
  | O => []
  | S n =>
    (x, y, d) ::
    (if 0 <? d then high_loop n (to_i32 (x + xi)) (y + 1) (to_i32 (d + 2 * (dx - dy))) xi dx dy
     else high_loop n x (y + 1) (to_i32 (d + 2 * dx)) xi dx dy)
  end.

(** drawing.rs:61-94 [draw_line_high]. *)
Definition draw_line_high (x1 y1 x2 y2 : Z) : list point :=
  let dx := to_i32 (x2 - x1) in
  let dy := to_i32 (y2 - y1) in
  let xi := if dx <? 0 then -1 else 1 in
  let dx := if dx <? 0 then to_i32 (- dx) else dx in
  let d := to_i32 (2 * dx - dy) in
  map (fun '(x, y, _) => (to_i16 x, to_i16 y))
    (high_loop (Z.to_nat (y2 + 1 - y1)) x1 y1 d xi dx dy).

(** drawing.rs:100-123 [draw_line]. *)
Definition draw_line (p1 p2 : point) : list point :=
  let (x1, y1) := p1 in let (x2, y2) := p2 in
  if Z.abs (y2 - y1) <? Z.abs (x2 - x1)
  then if x2 <? x1 then draw_line_low x2 y2 x1 y1 else draw_line_low x1 y1 x2 y2
  else if y2 <? y1 then draw_line_high x2 y2 x1 y1 else draw_line_high x1 y1 x2 y2.

(** * Circles *)

(** drawing.rs:195-216 and 254-271: the values of [x] and [y] in every iteration; [None] if [n]
    iterations are not enough. *)
Fixpoint circle_loop (n : nat) (diameter x y tx ty e : Z) : option (list (Z * Z)) :=
  if y <=? x then
    match n with
    | O => None
    | S n =>
      let '(y', e', ty') :=
        if e <=? 0 then (to_i16 (y + 1), to_i16 (e + ty), to_i16 (ty + 2)) else (y, e, ty) in
      let '(x', tx', e'') :=
        if 0 <? e' then
          let tx' := to_i16 (tx + 2) in (to_i16 (x - 1), tx', to_i16 (e' + to_i16 (tx' - diameter)))
        else (x, tx, e') in
      option_map (cons (x, y)) (circle_loop n diameter x' y' tx' ty' e'')
    end
  else Some [].

(** drawing.rs:181-193 and 239-252: the values that a circle is made of.  [Err] is the error for big
    radius, and [Ok None] does not happen. *)
Definition circle_steps (radius : Z) : res unit (option (list (Z * Z))) :=
  if 32767 <? 2 * radius then Err tt
  else Ok (circle_loop (Z.to_nat radius) (2 * radius) (radius - 1) 0 1 1 (1 - 2 * radius)).

(** drawing.rs:196-203: the points of an iteration. *)
Definition eight (c : point) (s : Z * Z) : list point :=
  let (cx, cy) := c in let (x, y) := s in
  map (fun '(a, b) => (to_i16 a, to_i16 b))
    [(cx + x, cy - y); (cx + x, cy + y); (cx - x, cy - y); (cx - x, cy + y);
     (cx + y, cy - x); (cx + y, cy + x); (cx - y, cy - x); (cx - y, cy + x)].

(** drawing.rs:167-219 [draw_circle]. *)
Definition draw_circle (center : point) (radius : Z) : res unit (option (list point)) :=
  if radius =? 0 then Ok (Some [])
  else if radius =? 1 then Ok (Some [center])
  else match circle_steps radius with
       | Err e => Err e
       | Ok steps => Ok (option_map (flat_map (eight center)) steps)
       end.

(** drawing.rs:255-258: the lines of an iteration. *)
Definition four_lines (c : point) (s : Z * Z) : list point :=
  let (cx, cy) := c in let (x, y) := s in
  let line a b a' b' := draw_line (to_i16 a, to_i16 b) (to_i16 a', to_i16 b') in
  line (cx + x) (cy - y) (cx + x) (cy + y) ++ line (cx - x) (cy - y) (cx - x) (cy + y) ++
  line (cx + y) (cy - x) (cx + y) (cy + x) ++ line (cx - y) (cy - x) (cx - y) (cy + x).

(** drawing.rs:225-274 [draw_circle_filled]. *)
Definition draw_circle_filled (center : point) (radius : Z) : res unit (option (list point)) :=
  if radius =? 0 then Ok (Some [])
  else if radius =? 1 then Ok (Some [center])
  else match circle_steps radius with
       | Err e => Err e
       | Ok steps => Ok (option_map (flat_map (four_lines center)) steps)
       end.

(** * Polygons *)

(** The lines from every point of a path to the next. *)
Fixpoint draw_path (points : list point) : list point :=
  match points with
  | p :: (q :: _) as rest => draw_line p q ++ draw_path rest
  | _ => []
  end.

(** drawing.rs:277-290 [draw_poly]. *)
Definition draw_poly (points : list point) : list point :=
  match points with
  | p :: _ :: _ => draw_path points ++ draw_line (last points p) p
  | _ => []
  end.

(** drawing.rs:301-319 [edge_intersection]; [/] rounds to zero. *)
Definition edge_intersection (y : Z) (p1 p2 : point) : option Z :=
  let (x1, y1) := p1 in let (x2, y2) := p2 in
  if y1 =? y2 then None
  else if (y <? Z.min y1 y2) || (Z.max y1 y2 <=? y) then None
  else Some (to_i32 (x1 + Z.quot (to_i32 ((y - y1) * (x2 - x1))) (y2 - y1))).

(** drawing.rs:334-340: the intersections of a row with all the edges, from a path whose last edge
    goes to [first]. *)
Fixpoint crossings (y : Z) (first : point) (points : list point) : list Z :=
  match points with
  | [] => []
  | p :: rest =>
    let next := match rest with q :: _ => q | [] => first end in
    match edge_intersection y p next with Some x => [x] | None => [] end ++ crossings y first rest
  end.

(** drawing.rs:346 [sort_unstable]: numbers only have one sorted order, so any algorithm will do. *)
Fixpoint insert_z (x : Z) (l : list Z) : list Z :=
  match l with
  | [] => [x]
  | y :: r => if x <=? y then x :: l else y :: insert_z x r
  end.
Definition sort_z (l : list Z) : list Z := fold_right insert_z [] l.

(** drawing.rs:347-352: the lines of every two intersections, the last one left out if odd. *)
Fixpoint spans (y : Z) (xs : list Z) : list point :=
  match xs with
  | a :: b :: r => draw_line (clamp_i16 a, clamp_i16 y) (clamp_i16 b, clamp_i16 y) ++ spans y r
  | _ => []
  end.

(** drawing.rs:333-353, for [n] rows from [y] on. *)
Fixpoint fill_rows (n : nat) (y : Z) (points : list point) : list point :=
  match n with
  | O => []
  | S n =>
    (match points with [] => [] | p :: _ => spans y (sort_z (crossings y p points)) end)
    ++ fill_rows n (y + 1) points
  end.

(** drawing.rs:322-356 [fill_polygon]. *)
Definition fill_polygon (points : list point) : list point :=
  match points with
  | [] => []
  | (_, y) :: rest =>
    let min_y := fold_left (fun m p => Z.min m (snd p)) rest y in
    let max_y := fold_left (fun m p => Z.max m (snd p)) rest y in
    fill_rows (Z.to_nat (max_y + 1 - min_y)) min_y points
  end.

(** drawing.rs:359-365 [draw_poly_filled]. *)
Definition draw_poly_filled (points : list point) : list point :=
  fill_polygon points ++ draw_poly points.

(** drawing.rs:424-432 [draw_tri]. *)
Definition draw_tri (p1 p2 p3 : point) : list point :=
  draw_line p1 p2 ++ draw_line p2 p3 ++ draw_line p3 p1.

(** drawing.rs:435-446 [draw_tri_filled]. *)
Definition draw_tri_filled (p1 p2 p3 : point) : list point :=
  fill_polygon [p1; p2; p3] ++ draw_tri p1 p2 p3.

(** * Rectangles *)

(** The type [u16]. *)
Definition to_u16 (z : Z) : Z := z mod 65536.

(** drawing.rs:368-381 [draw_rect]; [w] and [h] are a [SizeInPixels]. *)
Definition draw_rect (p : point) (w h : Z) : list point :=
  let (x1, y1) := p in
  let x2 := clamp_i16 (x1 + to_u16 (w - 1)) in
  let y2 := clamp_i16 (y1 + to_u16 (h - 1)) in
  draw_line (x1, y1) (x2, y1) ++ draw_line (x2, y1) (x2, y2) ++
  draw_line (x2, y2) (x1, y2) ++ draw_line (x1, y2) (x1, y1).

(** /repo/std/src/console/graphics.rs:138-166 [rect_points]. *)
Definition rect_points (p1 p2 : point) : option (point * Z * Z) :=
  let (x1, y1) := p1 in let (x2, y2) := p2 in
  let (xa, xb) := if x1 <? x2 then (x1, x2) else (x2, x1) in
  let (ya, yb) := if y1 <? y2 then (y1, y2) else (y2, y1) in
  let w := Z.min (xb - xa) 65535 in
  let h := Z.min (yb - ya) 65535 in
  if (w =? 0) || (h =? 0) then None else Some ((xa, ya), w, h).

(** /repo/std/src/console/graphics.rs:169-175 [tri_points]. *)
Definition tri_points (p1 p2 p3 : point) : bool :=
  let (x1, y1) := p1 in let (x2, y2) := p2 in let (x3, y3) := p3 in
  negb ((x2 - x1) * (y3 - y1) =? (y2 - y1) * (x3 - x1)).

(** Equality of points. *)
Definition point_eqb (p q : point) : bool := (fst p =? fst q) && (snd p =? snd q).

(** /repo/std/src/console/graphics.rs:132-135 [poly_points]. *)
Fixpoint uneven (points : list point) : bool :=
  match points with
  | p :: (q :: _) as rest => negb (point_eqb p q) || uneven rest
  | _ => false
  end.
Definition poly_points (points : list point) : bool :=
  uneven points ||
  match points with
  | p :: _ :: _ :: _ => negb (point_eqb p (last points p))
  | _ => false
  end.

(** * Text *)

(** /repo/std/src/gfx/lcd/fonts/mod.rs:34-46 [Font]. *)
Record font : Type := mkFont { f_width : nat; f_height : nat; f_stride : nat; f_data : list N }.

(** fonts/mod.rs:53-63 [glyph]; a missing byte, where the code panics, is zero. *)
Definition glyph_byte (f : font) (c : N) (i : nat) : N :=
  let c := if (32 <=? c)%N && (c <=? 126)%N then c else 63%N in
  nth ((N.to_nat c - 32) * (f_height f * f_stride f) + i) (f_data f) 0%N.

(** drawing.rs:384-408 [draw_char]. *)
Definition draw_char (f : font) (pos : point) (c : N) : list point :=
  let (px, py) := pos in
  flat_map (fun j =>
    flat_map (fun k =>
      let row := glyph_byte f c (j * f_stride f + k) in
      flat_map (fun i =>
        if (i <? 8)%nat && N.testbit row (7 - N.of_nat i)
        then [(to_i16 (px + Z.of_nat i + Z.of_nat k * 8), to_i16 (py + Z.of_nat j))] else [])
        (seq 0 (f_width f)))
      (seq 0 (f_stride f)))
    (seq 0 (f_height f)).

(** drawing.rs:411-421 [draw_text]. *)
Fixpoint draw_text (f : font) (pos : point) (text : ustr) : list point :=
  match text with
  | [] => []
  | c :: rest =>
    draw_char f pos c ++ draw_text f (to_i16 (fst pos + Z.of_nat (f_width f)), snd pos) rest
  end.
