(** The graphics commands and functions: std/src/gfx/mod.rs. *)
From Coq Require Import String.
From Verif Require Import Base Bytecode_Model Mem_Model Num_Model Vm_Model Ast_Model Syms_Model Strings_Model Cmds_Model Lib_Model.
Local Open Scope string_scope.
Local Open Scope list_scope.
Local Open Scope nat_scope.

(** The operations of the console that they ask for (std/src/console/mod.rs); coordinates are [i16]
    and radii [u16]. *)
Notation point := (Z * Z)%type.
Inductive gfx_op :=
| DrawCircle (center : point) (r : Z) | DrawCircleFilled (center : point) (r : Z)
| BucketFill (p : point)
| DrawLine (a b : point)
| DrawPixel (p : point)
| DrawPoly (points : list point) | DrawPolyFilled (points : list point)
| DrawRect (a b : point) | DrawRectFilled (a b : point)
| DrawTri (a b c : point) | DrawTriFilled (a b c : point)
| ShowCursor | HideCursor | SyncNow | SetSync (enabled : bool).

Section Commands.
Context {W : Type}.
(** What the console does with an operation, with its error; [size_pixels]; and [peek_pixel]. *)
Variable perform : gfx_op -> W -> W * option ustr.
Variable size_pixels : W -> res ustr (N * N).
Variable peek_pixel : point -> W -> res ustr (option N).

Section Scope.
Variable arg : nat -> N.
Variable pos : list linecol.
Notation result := (option (W * res call_failure (option cdatum))).

(** gfx/mod.rs 42-52. *)
Definition parse_coordinate (k : nat) : exec_result Z :=
  let i := as_i32 (arg k) in
  if ((-32768 <=? i) && (i <=? 32767))%Z then Some (Ok i) else syntax_error pos k (u "Coordinate " ++ to_string i ++ u " out of range").
(** gfx/mod.rs 55-74 and 92-97: [n] coordinates from argument [k], which are always read in order and
    up to the first error. *)
Fixpoint parse_from (k n : nat) : exec_result (list Z) :=
  match n with
  | 0 => Some (Ok [])
  | S n =>
      match parse_coordinate k with
      | None => None
      | Some (Err e) => Some (Err e)
      | Some (Ok z) => match parse_from (S k) n with Some (Ok zs) => Some (Ok (z :: zs)) | other => other end
      end
  end.
(** gfx/mod.rs 162-171. *)
Definition parse_radius (k : nat) : exec_result Z :=
  let i := as_i32 (arg k) in
  if ((0 <=? i) && (i <=? 65535))%Z then Some (Ok i)
  else if (i <? 0)%Z then syntax_error pos k (u "Radius " ++ to_string i ++ u " must be positive")
  else syntax_error pos k (u "Radius " ++ to_string i ++ u " out of range").

(** Errors of [io] have no position (callable.rs 58-64). *)
Definition ask (op : gfx_op) (w : W) : W * res call_failure (option cdatum) :=
  match perform op w with (w, None) => (w, Ok None) | (w, Some e) => (w, Err (None, e)) end.
(** The commands that take coordinates only. *)
Definition shape_exec (n : nat) (op : list Z -> option gfx_op) (w : W) : result :=
  match parse_from 0 n with
  | None => None
  | Some (Err e) => Some (w, Err e)
  | Some (Ok zs) => match op zs with Some op => Some (ask op w) | None => None end
  end.
(** gfx/mod.rs 348-354, 565-571, 453-460, 788-795, 858-865, 949-955 and 1032-1038. *)
Definition one_point (f : point -> gfx_op) (zs : list Z) : option gfx_op := match zs with [x; y] => Some (f (x, y)) | _ => None end.
Definition two_points (f : point -> point -> gfx_op) (zs : list Z) : option gfx_op :=
  match zs with [x1; y1; x2; y2] => Some (f (x1, y1) (x2, y2)) | _ => None end.
Definition three_points (f : point -> point -> point -> gfx_op) (zs : list Z) : option gfx_op :=
  match zs with [x1; y1; x2; y2; x3; y3] => Some (f (x1, y1) (x2, y2) (x3, y3)) | _ => None end.
(** gfx/mod.rs 227-234 and 290-297. *)
Definition circle_exec (f : point -> Z -> gfx_op) (w : W) : result :=
  match parse_from 0 2 with
  | None => None
  | Some (Err e) => Some (w, Err e)
  | Some (Ok zs) =>
      match parse_radius 2 with
      | None => None
      | Some (Err e) => Some (w, Err e)
      | Some (Ok r) => match zs with [x; y] => Some (ask (f (x, y) r) w) | _ => None end
      end
  end.
Fixpoint pairs (zs : list Z) : option (list point) :=
  match zs with
  | [] => Some []
  | x :: y :: r => match pairs r with Some l => Some ((x, y) :: l) | None => None end
  | _ => None
  end.
(** gfx/mod.rs 77-99 with 643-648 and 719-724.  Polygons in arrays (80 and 102-159) are not modelled.
    Arguments whose index does not fit in an [u8] panic. *)
Definition poly_exec (f : list point -> gfx_op) (w : W) : result :=
  let n := length pos in
  if n =? 1 then None
  else if 256 <? n then None
  else if Nat.odd n then
    match syntax_error pos (n - 1) (u "Expected an even number of coordinates") with Some r => Some (w, r) | None => None end
  else shape_exec n (fun zs => match pairs zs with Some l => Some (f l) | None => None end) w.
(** gfx/mod.rs 1088-1105. *)
Definition sync_exec (w : W) : result :=
  if length pos =? 0 then Some (ask SyncNow w)
  else
    let enabled := negb (arg 0 =? 0)%N in
    match ask (if enabled then ShowCursor else HideCursor) w with
    | (w, Ok _) => Some (ask (SetSync enabled) w)
    | (w, Err e) => Some (w, Err e)
    end.
(** gfx/mod.rs 386-390 and 1137-1141. *)
Definition size_exec (f : N * N -> N) (w : W) : result :=
  match size_pixels w with Ok size => Some (w, Ok (Some (CInt (Z.of_N (f size))))) | Err e => Some (w, Err (None, e)) end.
(** gfx/mod.rs 511-516. *)
Definition peek_exec (w : W) : result :=
  match parse_from 0 2 with
  | Some (Ok [x; y]) =>
      match peek_pixel (x, y) w with
      | Ok color => Some (w, Ok (Some (CInt (match color with Some c => Z.of_N c | None => -1 end))))
      | Err e => Some (w, Err (None, e))
      end
  | Some (Err e) => Some (w, Err e)
  | _ => None
  end.
End Scope.

(** The declarations of each one, and gfx/mod.rs 1144-1161. *)
Definition int_arg (name : string) (sep : argsep_syntax) : singular_syntax := RequiredValue (u name) TInteger sep.
Definition then_ : argsep_syntax := SepExactly SepLong.
Definition xy_syntax : list callable_syntax := [mkSyntax [int_arg "x" then_; int_arg "y" SepEndOnly] None].
Definition circle_syntax : list callable_syntax := [mkSyntax [int_arg "x" then_; int_arg "y" then_; int_arg "r" SepEndOnly] None].
Definition two_syntax : list callable_syntax :=
  [mkSyntax [int_arg "x1" then_; int_arg "y1" then_; int_arg "x2" then_; int_arg "y2" SepEndOnly] None].
Definition three_syntax : list callable_syntax :=
  [mkSyntax [int_arg "x1" then_; int_arg "y1" then_; int_arg "x2" then_; int_arg "y2" then_; int_arg "x3" then_; int_arg "y3" SepEndOnly] None].
Definition poly_syntax : list callable_syntax :=
  [mkSyntax [] None; mkSyntax [RequiredRef (u "points") true false SepEndOnly] None;
   mkSyntax [int_arg "x1" then_; int_arg "y1" then_] (Some (mkRepeated (u "coord") (RepTyped TInteger) (SepExactly SepLong) false false))].
Definition gfx_command (name : ustr) (ret : option etype) (syn : list callable_syntax)
    (exec : (nat -> N) -> list linecol -> W -> option (W * res call_failure (option cdatum))) : provided W :=
  mkProvided name (mkMd name ret false syn false) (fun arg text_of pos => exec arg pos).
Definition gfx_provided : list (provided W) :=
  [ gfx_command (u "GFX_CIRCLE") None circle_syntax (fun arg pos => circle_exec arg pos DrawCircle);
    gfx_command (u "GFX_CIRCLEF") None circle_syntax (fun arg pos => circle_exec arg pos DrawCircleFilled);
    gfx_command (u "GFX_FILL") None xy_syntax (fun arg pos => shape_exec arg pos 2 (one_point BucketFill));
    gfx_command (u "GFX_HEIGHT") (Some TInteger) [mkSyntax [] None] (fun arg pos => size_exec snd);
    gfx_command (u "GFX_LINE") None two_syntax (fun arg pos => shape_exec arg pos 4 (two_points DrawLine));
    gfx_command (u "GFX_PEEK") (Some TInteger) xy_syntax peek_exec;
    gfx_command (u "GFX_PIXEL") None xy_syntax (fun arg pos => shape_exec arg pos 2 (one_point DrawPixel));
    gfx_command (u "GFX_POLY") None poly_syntax (fun arg pos => poly_exec arg pos DrawPoly);
    gfx_command (u "GFX_POLYF") None poly_syntax (fun arg pos => poly_exec arg pos DrawPolyFilled);
    gfx_command (u "GFX_RECT") None two_syntax (fun arg pos => shape_exec arg pos 4 (two_points DrawRect));
    gfx_command (u "GFX_RECTF") None two_syntax (fun arg pos => shape_exec arg pos 4 (two_points DrawRectFilled));
    gfx_command (u "GFX_SYNC") None [mkSyntax [] None; mkSyntax [RequiredValue (u "enabled") TBoolean SepEndOnly] None] sync_exec;
    gfx_command (u "GFX_TRI") None three_syntax (fun arg pos => shape_exec arg pos 6 (three_points DrawTri));
    gfx_command (u "GFX_TRIF") None three_syntax (fun arg pos => shape_exec arg pos 6 (three_points DrawTriFilled));
    gfx_command (u "GFX_WIDTH") (Some TInteger) [mkSyntax [] None] (fun arg pos => size_exec fst) ].
End Commands.
