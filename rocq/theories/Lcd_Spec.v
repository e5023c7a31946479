(** A display as two pictures: what was drawn and what is seen. *)
From Verif Require Import Base Colors_Model Draw_Model Draw_Spec Lcd_Model.
Local Open Scope Z_scope.
Local Open Scope list_scope.

Definition picture : Type := point -> px.

(** The pixels of a display. *)
Definition on_display (d : lcd) (p : point) : Prop :=
  0 <= fst p < l_width d /\ 0 <= snd p < l_height d.

(** What the frame buffer has and what the device shows. *)
Definition canvas (d : lcd) : picture :=
  fun p => nth (Z.to_nat (snd p * l_width d + fst p)) (l_fb d) [].
Definition shown (d : lcd) : picture := fun p => l_dev d (fst p) (snd p).

(** A pixel of an area, its edges included. *)
Definition in_area (a : area) (p : point) : bool :=
  (fst (fst a) <=? fst p) && (fst p <=? fst (snd a)) && (snd (fst a) <=? snd p) && (snd p <=? snd (snd a)).

(** A display in a good state: the buffer has room for all the pixels, which a 16-bit coordinate can
    reach, and the pixels that the device does not show yet are in the damaged area. *)
Record sound (d : lcd) : Prop := mkSound {
  s_width : 0 < l_width d <= 32768;
  s_height : 0 < l_height d <= 32768;
  s_size : Z.of_nat (length (l_fb d)) = l_width d * l_height d;
  s_damage : forall a, l_damage d = Some a ->
    on_display d (fst a) /\ on_display d (snd a) /\
    fst (fst a) <= fst (snd a) /\ snd (fst a) <= snd (snd a);
  s_rest : forall p, on_display d p ->
    match l_damage d with Some a => in_area a p = false | None => True end -> shown d p = canvas d p
}.

(** With synchronization on, the device shows what was drawn. *)
Definition live (d : lcd) : Prop := l_sync d = true -> forall p, on_display d p -> shown d p = canvas d p.

(** [d'] is [d] with the picture [P] drawn.  The device shows it if synchronization is on, and has not
    changed if it is off. *)
Record becomes (P : picture) (d d' : lcd) : Prop := mkBecomes {
  b_sound : sound d';
  b_width : l_width d' = l_width d;
  b_height : l_height d' = l_height d;
  b_sync : l_sync d' = l_sync d;
  b_color : l_color d' = l_color d;
  b_canvas : forall p, on_display d p -> canvas d' p = P p;
  b_shown : forall p, on_display d p -> shown d' p = if l_sync d then P p else shown d p
}.

(** A picture with some of its pixels painted: all of them and no others. *)
Definition paint (where_ : point -> bool) (c : px) (P : picture) : picture :=
  fun p => if where_ p then c else P p.

(** A picture with a piece of another one. *)
Definition paste (where_ : point -> bool) (Q P : picture) : picture :=
  fun p => if where_ p then Q p else P p.

(** The pixels of a rectangle of a position and a size. *)
Definition box (p : point) (w h : Z) : area := (p, (fst p + w - 1, snd p + h - 1)).

(** The pixels of an area by rows, as [read_pixels] and [put_pixels] exchange them. *)
Definition block (a : area) (P : picture) : list px :=
  flat_map (fun y => map (fun x => P (x, y)) (range (fst (fst a)) (fst (snd a)))) (range (snd (fst a)) (snd (snd a))).

Definition in_list (l : list point) (p : point) : bool := existsb (point_eqb p) l.

(** ** Regions *)

Definition adjacent (p q : point) : Prop :=
  Z.abs (fst p - fst q) + Z.abs (snd p - snd q) = 1.

(** The pixels that can be reached from [p] through pixels that look the same. *)
Inductive region (d : lcd) (p : point) : point -> Prop :=
| region_start : on_display d p -> region d p p
| region_step q r : region d p q -> adjacent q r -> on_display d r -> canvas d r = canvas d p -> region d p r.

(** ** A display without buffers *)

(** What was drawn, what is seen, whether they go together, and the color to draw with. *)
Record screen : Type := mkScreen { drawn : picture; seen : picture; together : bool; ink : px }.

Definition redraw (P : picture) (s : screen) : screen :=
  mkScreen P (if together s then P else seen s) (together s) (ink s).

Inductive op : Type :=
| OColor (c : px)
| OClear
| OPixel (p : point)
| OShape (l : list point)
| ORect (p : point) (w h : Z)
| OMove (from to : point) (w h : Z)
| OPut (p : point) (w h : Z) (Q : picture)
| OPresent
| OSync (enabled : bool).

(** The effect that a user expects. *)
Definition effect (o : op) (s : screen) : screen :=
  match o with
  | OColor c => mkScreen (drawn s) (seen s) (together s) c
  | OClear => redraw (fun _ => ink s) s
  | OPixel p => redraw (paint (fun q => point_eqb q p) (ink s) (drawn s)) s
  | OShape l => redraw (paint (in_list l) (ink s) (drawn s)) s
  | ORect p w h => redraw (paint (in_area (box p w h)) (ink s) (drawn s)) s
  | OMove p1 p2 w h =>
    redraw (paste (in_area (box p2 w h)) (fun r => drawn s (fst r - fst p2 + fst p1, snd r - snd p2 + snd p1))
              (paint (in_area (box p1 w h)) (ink s) (drawn s))) s
  | OPut p w h Q => redraw (paste (in_area (box p w h)) Q (drawn s)) s
  | OPresent => mkScreen (drawn s) (drawn s) (together s) (ink s)
  | OSync true => mkScreen (drawn s) (drawn s) true (ink s)
  | OSync false => mkScreen (drawn s) (seen s) false (ink s)
  end.

(** The same operation in the code.  Synchronization is enabled as the console does it,
    /repo/std/src/console/graphics.rs:810-818. *)
Definition perform (o : op) (d : lcd) : option lcd :=
  match o with
  | OColor c => Some (set_draw_color c d)
  | OClear => clear d
  | OPixel p => draw_pixel p d
  | OShape l => draw_all l d
  | ORect p w h => draw_rect_filled p w h d
  | OMove p1 p2 w h => move_pixels p1 p2 w h d
  | OPut p w h Q => put_pixels p (block (box p w h) Q) w h d
  | OPresent => present_canvas d
  | OSync true => bind (present_canvas d) (fun d => Some (set_sync true d))
  | OSync false => Some (set_sync false d)
  end.

(** Sizes are 16-bit numbers and pieces to move are in the display; anything can be anywhere else,
    except for rectangles that start beyond the right or the bottom of the display. *)
Definition box_inside (width height : Z) (p : point) (w h : Z) : Prop :=
  0 <= fst p /\ 0 <= snd p /\ 1 <= w /\ 1 <= h /\ fst p + w <= width /\ snd p + h <= height.

Definition allowed (width height : Z) (o : op) : Prop :=
  match o with
  | ORect p w h => 1 <= w <= 65535 /\ 1 <= h <= 65535 /\ fst p < width /\ snd p < height
  | OMove p1 p2 w h => box_inside width height p1 w h /\ box_inside width height p2 w h
  | OPut p w h _ => box_inside width height p w h
  | _ => True
  end.

Definition looks_like (d : lcd) (s : screen) : Prop :=
  l_sync d = together s /\ l_color d = ink s /\
  forall p, on_display d p -> canvas d p = drawn s p /\ shown d p = seen s p.
