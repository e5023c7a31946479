(** The commands and functions of the console. *)
From Coq Require Import String.
From Coq Require Import Floats.SpecFloat.
From Verif Require Import Base Bytecode_Model Mem_Model Num_Model Vm_Model Ast_Model Text_Model Strings_Model Host_Model.
Local Open Scope string_scope.
Local Open Scope list_scope.
Local Open Scope nat_scope.

(** console/mod.rs: the operations of [Console] that these commands ask for. *)
Inductive con_op :=
| OpClear
| OpColor (fg bg : option N)
| OpLocate (x y : N)
| OpPrint (t : ustr)
| OpWrite (t : ustr).

(** callable.rs 48-56: an error of a call, with the position if it is a [CallError::Syntax]. *)
Definition call_failure : Type := option linecol * ustr.

(** A panic of the host is [None]. *)
Definition exec_result (A : Type) : Type := option (res call_failure A).

Section Scope.
(** What the argument slots hold, callable.rs 909-942: the register of slot [k]. *)
Variable arg : nat -> N.
(** [DatumPtr::resolve_string], which panics if there is no text. *)
Variable text_of : N -> option ustr.
(** [arg_linecols]. *)
Variable args_pos : list linecol.

(** callable.rs 939-941: [Scope::nargs]. *)
Definition nargs : nat := length args_pos.

(** callable.rs 946-948: [Scope::get_pos] indexes the slice, which panics out of bounds; used to
    fail with a [CallError::Syntax]. *)
Definition syntax_error {A} (k : nat) (msg : ustr) : exec_result A :=
  match nth_error args_pos k with Some p => Some (Err (Some p, msg)) | None => None end.

(** ** COLOR *)

(** cmds.rs 151-158. *)
Definition get_color (k : nat) : exec_result (option N) :=
  let i := as_i32 (arg k) in
  if ((0 <=? i) && (i <=? 255))%Z then Some (Ok (Some (Z.to_N i))) else syntax_error k (u "Color out of range").

(** cmds.rs 166-179 and 181-194: one of the two arguments at slot [reg], and the slot where the
    next one starts. *)
Definition color_arg (reg : nat) : exec_result (option N * nat) :=
  if reg <? nargs then
    match vararg_parse (arg reg) with
    | Some (VImmediate _ _) =>
        match get_color (S reg) with
        | Some (Ok c) => Some (Ok (c, S (S reg)))
        | Some (Err e) => Some (Err e)
        | None => None
        end
    | Some (VMissing _) => Some (Ok (None, S reg))
    | _ => None
    end
  else Some (Ok (None, S reg)).

(** cmds.rs 150-200. *)
Definition color_exec : exec_result con_op :=
  if nargs =? 0 then Some (Ok (OpColor None None))
  else if nargs =? 1 then
    match get_color 0 with
    | Some (Ok c) => Some (Ok (OpColor c None))
    | Some (Err e) => Some (Err e)
    | None => None
    end
  else
    match color_arg 0 with
    | Some (Ok (fg, reg)) =>
        match color_arg reg with
        | Some (Ok (bg, _)) => Some (Ok (OpColor fg bg))
        | Some (Err e) => Some (Err e)
        | None => None
        end
    | Some (Err e) => Some (Err e)
    | None => None
    end.

(** ** LOCATE *)

(** cmds.rs 463-471. *)
Definition get_coord (k : nat) (name : ustr) : exec_result N :=
  let i := as_i32 (arg k) in
  if ((0 <=? i) && (i <? 2 ^ 16))%Z then Some (Ok (Z.to_N i)) else syntax_error k (name ++ u " out of range").

(** cmds.rs 480-491: the messages; [size.x - 1] panics in builds that check for overflow if there
    are no columns, and is 65535 in others: the model takes the former. *)
Definition exceeds (k : nat) (name : ustr) (v limit : N) : exec_result con_op :=
  if (limit =? 0)%N then None
  else syntax_error k (name ++ u " " ++ to_string (Z.of_N v) ++ u " exceeds visible range of " ++ to_string (Z.of_N limit - 1)).

(** cmds.rs 462-495; [size] is what the console says, or its error. *)
Definition locate_exec (size : res ustr (N * N)) : exec_result con_op :=
  match get_coord 0 (u "Column") with
  | None => None
  | Some (Err e) => Some (Err e)
  | Some (Ok column) =>
      match get_coord 1 (u "Row") with
      | None => None
      | Some (Err e) => Some (Err e)
      | Some (Ok row) =>
          match size with
          | Err e => Some (Err (None, e))
          | Ok (sx, sy) =>
              if (sx <=? column)%N then exceeds 0 (u "Column") column sx
              else if (sy <=? row)%N then exceeds 1 (u "Row") row sy
              else Some (Ok (OpLocate column row))
          end
      end
  end.

(** ** PRINT *)

(** How Rust shows a double, by its bits, which is not modelled: [f64::to_string]. *)
Variable show_double : N -> ustr.

(** strings.rs 51-53: [format_double]. *)
Definition format_double (d : N) : ustr :=
  let is_nan := match f64_sf d with S754_nan => true | _ => false end in
  let is_sign_negative := N.testbit d 63 in
  if negb is_nan && is_sign_negative then show_double d else u " " ++ show_double d.

(** cmds.rs 555-575: the text for the value of slot [k], and whether [add_space] is set. *)
Definition print_value (t : etype) (k : nat) : option (ustr * bool) :=
  match t with
  | TBoolean => Some (format_boolean (negb (arg k =? 0)%N), true)
  | TDouble => Some (format_double (arg k), true)
  | TInteger => Some (format_integer (as_i32 (arg k)), true)
  | TText => match text_of (arg k) with Some s => Some (s, false) | None => None end
  end.

(** [text.len()] is in bytes. *)
Definition byte_len (t : ustr) : nat := length (collect t).

(** cmds.rs 592-595: [fuel] is more than the spaces that can be missing. *)
Fixpoint pad_loop (fuel : nat) (t : ustr) : ustr :=
  match fuel with
  | O => t
  | S n => if byte_len t mod 14 =? 0 then t else pad_loop n (t ++ [32%N])
  end.

(** cmds.rs 548-603: the loop, with the text and [nl] at its end.  [reg] is an [u8] and adding to
    it panics in builds that check for overflow; [fuel] is then more than the iterations that are
    possible. *)
Fixpoint print_loop (fuel reg : nat) (text : ustr) : option (ustr * bool) :=
  match fuel with
  | O => None
  | S n =>
      let finish (reg : nat) (text : ustr) (add_space nl : bool) (sep : argsep) :=
        if 256 <=? reg then None
        else
        match sep with
        | SepAs => None
        | SepEnd => Some (text, nl)
        | SepLong => print_loop n reg (pad_loop 14 (text ++ u " "))
        | SepShort => print_loop n reg (if add_space then text ++ u " " else text)
        end in
      match vararg_parse (arg reg) with
      | Some (VImmediate sep t) =>
          match print_value t (S reg) with
          | Some (v, add_space) => finish (S (S reg)) (text ++ v) add_space true sep
          | None => None
          end
      | Some (VMissing sep) =>
          let nl := match sep with SepEnd => true | _ => false end && (S reg =? 1) &&
                    match text with [] => true | _ => false end in
          finish (S reg) text false nl sep
      | _ => None
      end
  end.

(** cmds.rs 544-611. *)
Definition print_exec : exec_result con_op :=
  match print_loop 256 0 [] with
  | Some (text, nl) => Some (Ok (if nl then OpPrint text else OpWrite text))
  | None => None
  end.
End Scope.

(** ** The commands as what the machine calls *)

Section Console.
Variable show_double : N -> ustr.
(** The state of the console, and of all else outside of the machine; what its operations do, with
    the message of their error if they fail; and its size in characters. *)
Context {W : Type}.
Variable perform : con_op -> W -> W * option ustr.
Variable size : W -> res ustr (N * N).

(** The end of [exec] of a command: a failed operation is a [CallError::IoError]. *)
Definition finish_op (c : ctx) (h : heap) (w : W) (r : exec_result con_op) : option (upcall_result W) :=
  match r with
  | None => None
  | Some (Err e) => Some (mkUpcall W (c_regs c) h w (Some e))
  | Some (Ok op) =>
      let '(w', e) := perform op w in
      Some (mkUpcall W (c_regs c) h w' (match e with Some msg => Some (None, msg) | None => None end))
  end.

(** cmds.rs 644-648 and 681-685: [SCRCOLS] and [SCRROWS]. *)
Definition scr_exec (c : ctx) (first : N) (h : heap) (w : W) (get : N * N -> N) : option (upcall_result W) :=
  match size w with
  | Err e => Some (mkUpcall W (c_regs c) h w (Some (None, e)))
  | Ok xy =>
      match scope_return c first (i32_as_u64 (Z.of_N (get xy))) with
      | Some regs => Some (mkUpcall W regs h w None)
      | None => None
      end
  end.

(** The other commands and functions. *)
Variable other : N -> N -> nat -> image -> ctx -> heap -> W -> option (upcall_result W).

(** vm/mod.rs 310-332: what the command number [idx], called at [pc], gets; and cmds.rs 689-699. *)
Definition console_host (ups : list ustr) (idx first : N) (pc : nat) (img : image) (c : ctx) (h : heap) (w : W)
  : option (upcall_result W) :=
  let arg := scope_get c first in
  let text_of raw := deref_text raw (i_constants img) h in
  let args_pos := match nth_error (i_meta img) pc with Some m => m_args m | None => [] end in
  match nth_error ups (N.to_nat idx) with
  | None => None
  | Some k =>
      if ustr_eqb k (u "CLS") then finish_op c h w (Some (Ok OpClear))
      else if ustr_eqb k (u "COLOR") then finish_op c h w (color_exec arg args_pos)
      else if ustr_eqb k (u "LOCATE") then finish_op c h w (locate_exec arg args_pos (size w))
      else if ustr_eqb k (u "PRINT") then finish_op c h w (print_exec arg text_of show_double)
      else if ustr_eqb k (u "SCRCOLS") then scr_exec c first h w fst
      else if ustr_eqb k (u "SCRROWS") then scr_exec c first h w snd
      else other idx first pc img c h w
  end.
End Console.

(** cmds.rs 64-72, 97-140, 427-453, 507-535, 623-635 and 660-672: the declarations. *)
Definition print_syntax : callable_syntax :=
  mkSyntax [] (Some (mkRepeated (u "expr") RepAny (SepOneOf [SepLong; SepShort]) false true)).
Definition color_syntaxes : list callable_syntax :=
  [ mkSyntax [] None;
    mkSyntax [RequiredValue (u "fg") TInteger SepEndOnly] None;
    mkSyntax [OptionalValue (u "fg") TInteger (SepExactly SepLong); OptionalValue (u "bg") TInteger SepEndOnly] None ].
Definition locate_syntax : callable_syntax :=
  mkSyntax [RequiredValue (u "column") TInteger (SepExactly SepLong); RequiredValue (u "row") TInteger SepEndOnly] None.
Definition console_upcalls : list (ustr * callable_md) :=
  [ (u "CLS", mkMd (u "CLS") None false [mkSyntax [] None] false);
    (u "COLOR", mkMd (u "COLOR") None false color_syntaxes false);
    (u "LOCATE", mkMd (u "LOCATE") None false [locate_syntax] false);
    (u "PRINT", mkMd (u "PRINT") None false [print_syntax] false);
    (u "SCRCOLS", mkMd (u "SCRCOLS") (Some TInteger) false [mkSyntax [] None] false);
    (u "SCRROWS", mkMd (u "SCRROWS") (Some TInteger) false [mkSyntax [] None] false) ].
