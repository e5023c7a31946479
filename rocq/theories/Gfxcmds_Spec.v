(** What the graphics commands and functions are to do. *)
From Coq Require Import String.
From Verif Require Import Base Bytecode_Model Mem_Model Num_Model Vm_Model Ast_Model Call_Spec Cmds_Spec Lib_Spec Gfxcmds_Model.
Local Open Scope string_scope.
Local Open Scope list_scope.
Local Open Scope Z_scope.

Definition coordinate (z : Z) : Prop := -32768 <= z <= 32767.
Definition ints (zs : list Z) : list given := map (fun z => GValue (CInt z)) zs.
(** An integer in decimal. *)
Definition decimal (z : Z) (d : ustr) : Prop := (0 <= z /\ numeral z d) \/ (z < 0 /\ exists n, numeral z n /\ d = u "-" ++ n).

(** What is drawn with a list of coordinates, in pairs. *)
Definition flat (points : list (Z * Z)) : list Z := flat_map (fun p => [fst p; snd p]) points.
Inductive shape : ustr -> list Z -> gfx_op -> Prop :=
| Shape_fill p : shape (u "GFX_FILL") (flat [p]) (BucketFill p)
| Shape_pixel p : shape (u "GFX_PIXEL") (flat [p]) (DrawPixel p)
| Shape_line a b : shape (u "GFX_LINE") (flat [a; b]) (DrawLine a b)
| Shape_rect a b : shape (u "GFX_RECT") (flat [a; b]) (DrawRect a b)
| Shape_rectf a b : shape (u "GFX_RECTF") (flat [a; b]) (DrawRectFilled a b)
| Shape_tri a b c : shape (u "GFX_TRI") (flat [a; b; c]) (DrawTri a b c)
| Shape_trif a b c : shape (u "GFX_TRIF") (flat [a; b; c]) (DrawTriFilled a b c)
| Shape_poly l : (length l < 128)%nat -> shape (u "GFX_POLY") (flat l) (DrawPoly l)
| Shape_polyf l : (length l < 128)%nat -> shape (u "GFX_POLYF") (flat l) (DrawPolyFilled l).
Inductive circle : ustr -> (Z * Z -> Z -> gfx_op) -> Prop :=
| Circle_empty : circle (u "GFX_CIRCLE") DrawCircle
| Circle_filled : circle (u "GFX_CIRCLEF") DrawCircleFilled.

(** The first of them that is not a coordinate, and how that is told. *)
Definition first_bad (zs : list Z) (msg : ustr) : Prop :=
  exists before z after d, zs = before ++ z :: after /\ Forall coordinate before /\ ~ coordinate z /\ decimal z d /\
    msg = u "Coordinate " ++ d ++ u " out of range".

Section Commands.
Context {W : Type}.
Variable perform : gfx_op -> W -> W * option ustr.
Variable size_pixels : W -> res ustr (N * N).
Variable peek_pixel : Z * Z -> W -> res ustr (option N).

(** One operation on the console, or its error. *)
Definition performs (op : gfx_op) (w : W) (r : res ustr (option cdatum)) (w' : W) : Prop :=
  exists e, perform op w = (w', e) /\ r = match e with None => Ok None | Some msg => Err msg end.

Inductive gfx_does : doing W :=
| Does_draw k zs op w r w' : shape k zs op -> Forall coordinate zs -> performs op w r w' -> gfx_does k (ints zs) w r w'
| Does_refuse k zs op msg w : shape k zs op -> first_bad zs msg -> gfx_does k (ints zs) w (Err msg) w
| Does_odd k zs w : k = u "GFX_POLY" \/ k = u "GFX_POLYF" -> Nat.odd (length zs) = true -> (1 < length zs < 256)%nat ->
    gfx_does k (ints zs) w (Err (u "Expected an even number of coordinates")) w
| Does_circle k f x y n w r w' : circle k f -> coordinate x -> coordinate y -> 0 <= n <= 65535 -> performs (f (x, y) n) w r w' ->
    gfx_does k (ints [x; y; n]) w r w'
| Does_circle_refuse k f x y n msg w : circle k f -> first_bad [x; y] msg -> gfx_does k (ints [x; y; n]) w (Err msg) w
| Does_radius_negative k f x y n d w : circle k f -> coordinate x -> coordinate y -> n < 0 -> decimal n d ->
    gfx_does k (ints [x; y; n]) w (Err (u "Radius " ++ d ++ u " must be positive")) w
| Does_radius_large k f x y n d w : circle k f -> coordinate x -> coordinate y -> 65535 < n -> decimal n d ->
    gfx_does k (ints [x; y; n]) w (Err (u "Radius " ++ d ++ u " out of range")) w
| Does_sync_now w r w' : performs SyncNow w r w' -> gfx_does (u "GFX_SYNC") [] w r w'
| Does_sync (b : bool) w w1 r w' : performs (if b then ShowCursor else HideCursor) w (Ok None) w1 -> performs (SetSync b) w1 r w' ->
    gfx_does (u "GFX_SYNC") [GValue (CBool b)] w r w'
| Does_sync_fails (b : bool) w e w' : performs (if b then ShowCursor else HideCursor) w (Err e) w' ->
    gfx_does (u "GFX_SYNC") [GValue (CBool b)] w (Err e) w'
| Does_width x y w : size_pixels w = Ok (x, y) -> (x < 65536)%N -> gfx_does (u "GFX_WIDTH") [] w (Ok (Some (CInt (Z.of_N x)))) w
| Does_height x y w : size_pixels w = Ok (x, y) -> (y < 65536)%N -> gfx_does (u "GFX_HEIGHT") [] w (Ok (Some (CInt (Z.of_N y)))) w
| Does_no_size k e w : k = u "GFX_WIDTH" \/ k = u "GFX_HEIGHT" -> size_pixels w = Err e -> gfx_does k [] w (Err e) w
| Does_peek x y c w : coordinate x -> coordinate y -> peek_pixel (x, y) w = Ok (Some c) -> (c < 256)%N ->
    gfx_does (u "GFX_PEEK") (ints [x; y]) w (Ok (Some (CInt (Z.of_N c)))) w
| Does_peek_none x y w : coordinate x -> coordinate y -> peek_pixel (x, y) w = Ok None ->
    gfx_does (u "GFX_PEEK") (ints [x; y]) w (Ok (Some (CInt (-1)))) w
| Does_peek_fails x y e w : coordinate x -> coordinate y -> peek_pixel (x, y) w = Err e -> gfx_does (u "GFX_PEEK") (ints [x; y]) w (Err e) w
| Does_peek_refuse x y msg w : first_bad [x; y] msg -> gfx_does (u "GFX_PEEK") (ints [x; y]) w (Err msg) w.
End Commands.

(** Operations whose coordinates have 16 bits with a sign and whose radii have 16 bits without. *)
Definition point_fits (p : Z * Z) : Prop := coordinate (fst p) /\ coordinate (snd p).
Definition op_fits (op : gfx_op) : Prop :=
  match op with
  | DrawCircle p r | DrawCircleFilled p r => point_fits p /\ 0 <= r <= 65535
  | BucketFill p | DrawPixel p => point_fits p
  | DrawLine a b | DrawRect a b | DrawRectFilled a b => point_fits a /\ point_fits b
  | DrawTri a b c | DrawTriFilled a b c => point_fits a /\ point_fits b /\ point_fits c
  | DrawPoly l | DrawPolyFilled l => forall p, In p l -> point_fits p
  | ShowCursor | HideCursor | SyncNow | SetSync _ => True
  end.
(** What is left after some of those. *)
Inductive only_drawn {W : Type} (perform : gfx_op -> W -> W * option ustr) : W -> W -> Prop :=
| Drawn_nothing w : only_drawn perform w w
| Drawn_op op w w1 e w' : op_fits op -> perform op w = (w1, e) -> only_drawn perform w1 w' -> only_drawn perform w w'.
