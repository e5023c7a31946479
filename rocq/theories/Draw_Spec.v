(** Lines, circles and polygons as sets of pixels, without the algorithms that draw them. *)
From Verif Require Import Base Draw_Model.
Local Open Scope Z_scope.
Local Open Scope list_scope.

(** Coordinates of pixels are 16-bit numbers. *)
Definition is16 (z : Z) : Prop := -32768 <= z <= 32767.
Definition pixel (p : point) : Prop := is16 (fst p) /\ is16 (snd p).

(** * Lines *)

(** How far apart two pixels are, when steps can go in diagonal. *)
Definition distance (p q : point) : Z :=
  Z.max (Z.abs (fst q - fst p)) (Z.abs (snd q - snd p)).

(** Every pixel touches the next one. *)
Fixpoint unbroken (l : list point) : Prop :=
  match l with
  | p :: (q :: _) as rest => distance p q = 1 /\ unbroken rest
  | _ => True
  end.

Definition between (a b z : Z) : Prop := Z.min a b <= z <= Z.max a b.

Definition in_box (p q r : point) : Prop :=
  between (fst p) (fst q) (fst r) /\ between (snd p) (snd q) (snd r).

(** [r] is at most half a pixel away, in the direction in which the line is steeper, from the ideal
    line that joins [p] and [q]. *)
Definition near_line (p q r : point) : Prop :=
  2 * Z.abs ((fst r - fst p) * (snd q - snd p) - (snd r - snd p) * (fst q - fst p)) <= distance p q.

(** [l] goes from one point to the other. *)
Definition joins (p q : point) (l : list point) : Prop :=
  exists m, l = p :: m /\ last l p = q.

(** * Circles *)

(** A pixel of the border of a circle of radius [r], at the given distance from the center: the
    outermost ones in the circle that are less than [r] away in each direction. *)
Definition on_circle (r dx dy : Z) : Prop :=
  let a := Z.max (Z.abs dx) (Z.abs dy) in
  let b := Z.min (Z.abs dx) (Z.abs dy) in
  a < r /\ a * a + b * b <= r * r /\ ((a + 1) * (a + 1) + b * b > r * r \/ a = r - 1).

(** A pixel of the disc, with the same cut. *)
Definition in_disc (r dx dy : Z) : Prop :=
  Z.abs dx < r /\ Z.abs dy < r /\ dx * dx + dy * dy <= r * r.

(** The circle does not leave the space of coordinates. *)
Definition circle_fits (c : point) (r : Z) : Prop :=
  is16 (fst c - r) /\ is16 (fst c + r) /\ is16 (snd c - r) /\ is16 (snd c + r).

(** * Polygons *)

(** The edges of a closed polygon. *)
Definition edges (points : list point) : list (point * point) :=
  match points with
  | [] => []
  | p :: rest => combine points (rest ++ [p])
  end.

(** The row [y] crosses the edge: it is at or below one of the ends and above the other. *)
Definition crosses (y : Z) (e : point * point) : bool :=
  negb (Bool.eqb (snd (fst e) <=? y) (snd (snd e) <=? y)).

(** ... at this column: on the segment, without the decimals of the distance to its first end. *)
Definition crossing (y : Z) (e : point * point) : Z :=
  let '((x1, y1), (x2, y2)) := e in x1 + Z.quot ((y - y1) * (x2 - x1)) (y2 - y1).

(** The columns where the row [y] crosses the polygon. *)
Definition columns (points : list point) (y : Z) : list Z :=
  map (crossing y) (filter (crosses y) (edges points)).

(** A pixel is inside if it is on a crossing or there is an odd number of them to its left. *)
Definition inside (points : list point) (p : point) : Prop :=
  let xs := columns points (snd p) in
  In (fst p) xs \/ Nat.odd (length (filter (fun x => x <=? fst p) xs)) = true.

(** Coordinates for which no product overflows. *)
Definition small (p : point) : Prop := -16383 <= fst p <= 16383 /\ -16383 <= snd p <= 16383.

(** Three points are in a line. *)
Definition collinear (p1 p2 p3 : point) : Prop :=
  exists a b c, (a <> 0 \/ b <> 0) /\ forall p, In p [p1; p2; p3] -> a * fst p + b * snd p = c.

(** * Rectangles *)

(** The border of the rectangle with these corners. *)
Definition on_border (p q r : point) : Prop :=
  in_box p q r /\ (fst r = fst p \/ fst r = fst q \/ snd r = snd p \/ snd r = snd q).

(** * Text *)

(** Whether the glyph of a character has a dot.  Every row of a glyph has some bytes for 8 columns
    each, the leftmost column in the highest bit. *)
Definition dot (f : font) (c : N) (col row : nat) : Prop :=
  (row < f_height f)%nat /\
  exists k i, (k < f_stride f)%nat /\ (i < 8)%nat /\ (i < f_width f)%nat /\ col = (8 * k + i)%nat /\
    N.testbit (glyph_byte f c (row * f_stride f + k)) (7 - N.of_nat i) = true.
