(** A console as a picture, a cursor and a text that flows in cells. *)
From Verif Require Import Base Colors_Model Draw_Model Draw_Spec Lcd_Model Lcd_Spec Gfx_Model.
Local Open Scope Z_scope.
Local Open Scope list_scope.

(** The fixed sizes: of the display, of a glyph, and how many whole glyphs there are. *)
Record sizes : Type := mkSizes { s_w : Z; s_h : Z; s_gw : Z; s_gh : Z }.
Definition cols (z : sizes) : Z := s_w z / s_gw z.
Definition rows (z : sizes) : Z := s_h z / s_gh z.

(** The pixels of a cell. *)
Definition cell (z : sizes) (x y : Z) : area := box (x * s_gw z, y * s_gh z) (s_gw z) (s_gh z).

(** Whether a glyph has a dot, with the rules of C58. *)
Definition lit (f : font) (c : N) (col row : Z) : bool :=
  let k := col / 8 in
  (0 <=? col) && (0 <=? row) && (row <? Z.of_nat (f_height f)) && (k <? Z.of_nat (f_stride f)) &&
  (col mod 8 <? Z.of_nat (f_width f)) &&
  N.testbit (glyph_byte f c (Z.to_nat row * f_stride f + Z.to_nat k)) (7 - Z.to_N (col mod 8)).

(** ** Text *)

(** A picture and where the next character goes. *)
Definition page : Type := (picture * Z * Z)%type.

(** A character takes its cell. *)
Definition put_char (z : sizes) (f : font) (fg bg : px) (c : N) (g : page) : page :=
  let '(P, x, y) := g in
  (fun p => if in_area (cell z x y) p
            then if lit f c (fst p - x * s_gw z) (snd p - y * s_gh z) then fg else bg
            else P p, x + 1, y).

(** The next line; in the last one, the text goes up and leaves nothing below it. *)
Definition next_line (z : sizes) (bg : px) (g : page) : page :=
  let '(P, x, y) := g in
  if y + 1 <? rows z then (P, 0, y + 1)
  else (fun p => if snd p <? (rows z - 1) * s_gh z then P (fst p, snd p + s_gh z) else bg, 0, y).

(** A character goes to the next line if there is no room in this one. *)
Definition type_char (z : sizes) (f : font) (fg bg : px) (g : page) (c : N) : page :=
  put_char z f fg bg c (if snd (fst g) <? cols z then g else next_line z bg g).

Definition type_text (z : sizes) (f : font) (fg bg : px) (text : ustr) (g : page) : page :=
  fold_left (type_char z f fg bg) text g.

(** What cannot be shown is a space. *)
Definition printable (text : ustr) : ustr :=
  map (fun c => if (c <? 32)%N || (c =? 127)%N || ((128 <=? c) && (c <? 160))%N then 32%N else c) text.

(** ** Consoles *)

(** The picture without the cursor and with it, the position of the cursor, whether it is visible, the
    colors, and what comes back after the alternate screen. *)
Record view : Type := mkView {
  v_under : picture;
  v_screen : picture;
  v_x : Z;
  v_y : Z;
  v_on : bool;
  v_fg : option N;
  v_bg : option N;
  v_alt : option (picture * (Z * Z) * (option N * option N))
}.

Definition fg_of (u : setup) (v : view) : px :=
  encode u (rgb_of match v_fg v with Some c => c | None => def_fg u end).
Definition bg_of (u : setup) (v : view) : px :=
  encode u (rgb_of match v_bg v with Some c => c | None => def_bg u end).

(** A new page, with a cursor on it if it is visible. *)
Definition show (u : setup) (z : sizes) (v : view) (g : page) : view :=
  let '(P, x, y) := g in
  mkView P (if v_on v then paint (in_area (cell z x y)) (fg_of u v) P else P) x y (v_on v) (v_fg v) (v_bg v) (v_alt v).

Definition page_of (v : view) : page := (v_under v, v_x v, v_y v).

(** Drawing goes over the cursor, and what is drawn there does not last. *)
Definition draw_on (u : setup) (z : sizes) (v : view) (where_ : point -> bool) : view :=
  mkView
    (paint (fun p => where_ p && negb (v_on v && in_area (cell z (v_x v) (v_y v)) p)) (fg_of u v) (v_under v))
    (paint where_ (fg_of u v) (v_screen v))
    (v_x v) (v_y v) (v_on v) (v_fg v) (v_bg v) (v_alt v).

Inductive gop : Type :=
| GClear (how : clear_type)
| GColor (fg bg : option N)
| GHide
| GShow
| GLocate (x y : Z)
| GMove (off : Z)
| GPrint (text : ustr)
| GWrite (text : ustr)
| GShape (l : list point)
| GPixel (p : point)
| GEnterAlt
| GLeaveAlt
| GSync (enabled : bool)
| GSyncNow.

Definition effect_on (u : setup) (z : sizes) (o : gop) (v : view) : view :=
  let f := glyphs u in
  match o with
  | GClear All => show u z v (fun _ => bg_of u v, 0, 0)
  | GClear CurrentLine =>
    show u z v (paint (in_area (box (0, v_y v * s_gh z) (s_w z) (s_gh z))) (bg_of u v) (v_under v), 0, v_y v)
  | GClear PreviousChar =>
    if 0 <? v_x v
    then show u z v (paint (in_area (cell z (v_x v - 1) (v_y v))) (bg_of u v) (v_under v), v_x v - 1, v_y v)
    else v
  | GClear UntilNewLine =>
    show u z v (paint (in_area (box (v_x v * s_gw z, v_y v * s_gh z) (s_w z - v_x v * s_gw z) (s_gh z)))
                  (bg_of u v) (v_under v), v_x v, v_y v)
  | GColor fg bg => mkView (v_under v) (v_screen v) (v_x v) (v_y v) (v_on v) fg bg (v_alt v)
  | GHide => mkView (v_under v) (v_under v) (v_x v) (v_y v) false (v_fg v) (v_bg v) (v_alt v)
  | GShow =>
    if v_on v then v
    else show u z (mkView (v_under v) (v_under v) (v_x v) (v_y v) true (v_fg v) (v_bg v) (v_alt v)) (page_of v)
  | GLocate x y => show u z v (v_under v, x, y)
  | GMove off => show u z v (v_under v, v_x v + off, v_y v)
  | GPrint text => show u z v (next_line z (bg_of u v) (type_text z f (fg_of u v) (bg_of u v) (printable text) (page_of v)))
  | GWrite text => show u z v (type_text z f (fg_of u v) (bg_of u v) (printable text) (page_of v))
  | GShape l => draw_on u z v (in_list l)
  | GPixel p => draw_on u z v (fun q => point_eqb q p)
  | GEnterAlt =>
    show u z (mkView (v_under v) (v_screen v) (v_x v) (v_y v) (v_on v) (v_fg v) (v_bg v)
                (Some (v_screen v, (v_x v, v_y v), (v_fg v, v_bg v)))) (fun _ => bg_of u v, 0, 0)
  | GLeaveAlt =>
    match v_alt v with
    | None => v
    | Some (P, (x, y), (fg, bg)) =>
      show u z (mkView (v_under v) (v_screen v) (v_x v) (v_y v) (v_on v) fg bg None) (P, x, y)
    end
  | GSync _ | GSyncNow => v
  end.

(** A console, what its device shows, and whether it follows the drawing. *)
Definition showing : Type := (view * picture * bool)%type.

Definition effect_of (u : setup) (z : sizes) (s : showing) (o : gop) : showing :=
  let '(v, seen, sync) := s in
  let v' := effect_on u z o v in
  match o with
  | GSync true => (v', v_screen v', true)
  | GSync false => (v', seen, false)
  | GSyncNow => (v', v_screen v', sync)
  | _ => (v', if sync then v_screen v' else seen, sync)
  end.

(** The code. *)
Definition always (r : option con) : option (res unit con) := bind r (fun g => Some (Ok g)).
Definition run_op (u : setup) (o : gop) (g : con) : option (res unit con) :=
  match o with
  | GClear how => always (clear_con u how g)
  | GColor fg bg => always (Some (set_color u fg bg g))
  | GHide => always (hide_cursor u g)
  | GShow => always (show_cursor u g)
  | GLocate x y => always (locate u (x, y) g)
  | GMove off => always (move_within_line u off g)
  | GPrint text => always (print u text g)
  | GWrite text => always (write u text g)
  | GShape l => always (draw_shape u l g)
  | GPixel p => always (gdraw_pixel u p g)
  | GEnterAlt => enter_alt u g
  | GLeaveAlt => leave_alt u g
  | GSync enabled => always (set_csync enabled g)
  | GSyncNow => always (sync_now g)
  end.
Fixpoint run_ops (u : setup) (ops : list gop) (g : con) : option con :=
  match ops with
  | [] => Some g
  | o :: ops => match run_op u o g with Some (Ok g) => run_ops u ops g | _ => None end
  end.

(** A visible cursor must be in the display: there is no room for it after a full line, if no pixels
    are left at the right of the last column. *)
Definition cursor_fits (z : sizes) (v : view) : Prop := v_on v = true -> v_x v * s_gw z < s_w z.

Definition fine (u : setup) (z : sizes) (o : gop) (v : view) : Prop :=
  cursor_fits z (effect_on u z o v) /\
  match o with
  | GClear PreviousChar => v_on v = true -> 0 < v_x v
  | GClear UntilNewLine => v_x v * s_gw z < s_w z
  | GLocate x y => 0 <= x < cols z /\ 0 <= y < rows z
  | GMove off => 0 <= v_x v + off <= cols z
  | GEnterAlt => v_alt v = None
  | GLeaveAlt => v_alt v <> None
  | _ => True
  end.

Fixpoint all_fine (u : setup) (z : sizes) (ops : list gop) (v : view) : Prop :=
  match ops with
  | [] => True
  | o :: ops => fine u z o v /\ all_fine u z ops (effect_on u z o v)
  end.

(** Displays that have room for two lines, in 16 bits, and fonts whose glyphs are in their cells. *)
Record good_sizes (u : setup) (z : sizes) : Prop := mkGood {
  gs_w : s_gw z = gw u;
  gs_h : s_gh z = gh u;
  gs_gw : 1 <= s_gw z <= s_w z;
  gs_gh : 1 <= s_gh z /\ 2 * s_gh z <= s_h z;
  gs_max : s_w z + 8 * Z.of_nat (f_stride (glyphs u)) <= 32767 /\ s_h z <= 32767;
  gs_font : f_width (glyphs u) = (8 * f_stride (glyphs u))%nat \/ (f_stride (glyphs u) = 1 /\ f_width (glyphs u) <= 8)%nat
}.

(** The console of the code looks like a view. *)
Definition on (z : sizes) (p : point) : Prop := 0 <= fst p < s_w z /\ 0 <= snd p < s_h z.

Definition same_on (z : sizes) (P Q : picture) : Prop := forall p, on z p -> P p = Q p.

(** What is visible of a cell. *)
Definition clipped (z : sizes) (x y : Z) : area :=
  box (x * s_gw z, y * s_gh z) (Z.min (s_gw z) (s_w z - x * s_gw z)) (s_gh z).

Record agrees (u : setup) (z : sizes) (g : con) (s : showing) : Prop := mkAgrees {
  a_sound : sound (c_lcd g);
  a_live : live (c_lcd g);
  a_w : l_width (c_lcd g) = s_w z;
  a_h : l_height (c_lcd g) = s_h z;
  a_chars : c_chars g = (cols z, rows z);
  a_sync : c_sync g = snd s /\ l_sync (c_lcd g) = snd s;
  a_cursor : c_cursor g = (v_x (fst (fst s)), v_y (fst (fst s)));
  a_place : 0 <= v_x (fst (fst s)) <= cols z /\ 0 <= v_y (fst (fst s)) < rows z;
  a_fits : cursor_fits z (fst (fst s));
  a_visible : c_visible g = v_on (fst (fst s));
  a_fg : c_ansi_fg g = v_fg (fst (fst s)) /\ encode u (c_fg g) = fg_of u (fst (fst s));
  a_bg : c_ansi_bg g = v_bg (fst (fst s)) /\ encode u (c_bg g) = bg_of u (fst (fst s));
  a_canvas : same_on z (canvas (c_lcd g)) (v_screen (fst (fst s)));
  a_seen : same_on z (shown (c_lcd g)) (snd (fst s));
  a_backup : if v_on (fst (fst s))
             then c_backup g = Some (block (clipped z (v_x (fst (fst s))) (v_y (fst (fst s)))) (v_under (fst (fst s)))) /\
                  forall p, on z p -> in_area (cell z (v_x (fst (fst s))) (v_y (fst (fst s)))) p = false ->
                    v_under (fst (fst s)) p = v_screen (fst (fst s)) p
             else c_backup g = None /\ same_on z (v_under (fst (fst s))) (v_screen (fst (fst s)));
  a_alt : match v_alt (fst (fst s)), c_alt g with
          | None, None => True
          | Some (P, (x, y), (fg, bg)), Some (data, pos, (fg', bg'), (cfg, cbg)) =>
            data = block (box (0, 0) (s_w z) (s_h z)) P /\ pos = (x, y) /\ fg' = fg /\ bg' = bg /\
            0 <= x <= cols z /\ 0 <= y < rows z /\
            encode u cfg = encode u (rgb_of match fg with Some c => c | None => def_fg u end) /\
            encode u cbg = encode u (rgb_of match bg with Some c => c | None => def_bg u end)
          | _, _ => False
          end
}.
