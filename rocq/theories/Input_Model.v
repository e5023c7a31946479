(** The [INPUT] command: /repo/std/src/console/cmds.rs 277-416, with the parts of
    /repo/std/src/strings.rs and /repo/core/src/callable.rs that it needs.  What reads a line from
    the console ([read_line], /repo/std/src/console/readline.rs; see Readline_Model for it) is a
    parameter here, and so are the tables of Unicode and the parser of doubles. *)
From Coq Require Import String.
From Verif Require Import Base Bytecode_Model Mem_Model Vm_Model Ast_Model Strings_Model Host_Model Cmds_Model.
Local Open Scope string_scope.
Local Open Scope list_scope.
Local Open Scope nat_scope.

(** What [read_line] returns: a line, an error of the kind [InvalidData], or any other error. *)
Inductive line_read := ReadLine (s : ustr) | ReadInvalid (msg : ustr) | ReadFailed (msg : ustr).

(** [str::trim_end]. *)
Definition trim_end (s : ustr) : ustr := rev (trim_left (rev s)).

Section Answer.
(** [char::to_uppercase], and [f64::from_str] as the bits of its result. *)
Variable uc : N -> list N.
Variable parse_f64 : ustr -> option N.

(** strings.rs 39-48, 56-61 and 69-74, as cmds.rs 375-404 calls them: the value or the message of
    the error. *)
Definition parse_boolean (s : ustr) : res ustr bool :=
  let raw := flat_map uc s in
  if ustr_eqb raw (u "TRUE") || ustr_eqb raw (u "YES") || ustr_eqb raw (u "Y") then Ok true
  else if ustr_eqb raw (u "FALSE") || ustr_eqb raw (u "NO") || ustr_eqb raw (u "N") then Ok false
  else Err (u "Invalid boolean literal " ++ s).
Definition parse_double (s : ustr) : res ustr N :=
  match parse_f64 s with
  | Some d => Ok d
  | None => Err (u "Invalid double-precision floating point literal " ++ s)
  end.
Definition parse_answer (t : etype) (s : ustr) : res ustr cdatum :=
  match t with
  | TBoolean => match parse_boolean s with Ok b => Ok (CBool b) | Err e => Err e end
  | TDouble => match parse_double s with Ok d => Ok (CDouble d) | Err e => Err e end
  | TInteger =>
      match parse_integer s with Some z => Ok (CInt z) | None => Err (u "Invalid integer literal " ++ s) end
  | TText => Ok (CText s)
  end.
End Answer.

Section Input.
Variable uc : N -> list N.
Variable parse_f64 : ustr -> option N.
Context {W : Type}.
(** Reads a line with a prompt, given what is on it at first. *)
Variable read_line : ustr -> ustr -> W -> W * line_read.
Variable perform : con_op -> W -> W * option ustr.

(** cmds.rs 371-414.  [None] is that the loop has not ended after [attempts] lines. *)
Fixpoint input_loop (attempts : nat) (t : etype) (prompt previous : ustr) (w : W) : option (W * res ustr cdatum) :=
  match attempts with
  | O => None
  | S n =>
      let retry e previous w :=
        match perform (OpPrint (u "Retry input: " ++ e)) w with
        | (w, None) => input_loop n t prompt previous w
        | (w, Some msg) => Some (w, Err msg)
        end in
      match read_line prompt previous w with
      | (w, ReadLine answer) =>
          match parse_answer uc parse_f64 t (trim_end answer) with
          | Ok d => Some (w, Ok d)
          | Err e => retry e answer w
          end
      | (w, ReadInvalid e) => retry e previous w
      | (w, ReadFailed e) => Some (w, Err e)
      end
  end.

(** cmds.rs 343-366: the prompt and the slot of the reference to the variable; [None] is a panic. *)
Definition input_prompt (arg : nat -> N) (text_of : N -> option ustr) (nargs : nat) : option (ustr * nat) :=
  if nargs =? 1 then Some ([], 0)
  else
    match (match vararg_parse (arg 0) with
           | Some (VImmediate sep _) =>
               match text_of (arg 1) with Some p => Some (p, sep, 2) | None => None end
           | Some (VMissing sep) => Some ([], sep, 1)
           | _ => None
           end) with
    | Some (p, SepLong, reg) => Some (p, reg)
    | Some (p, SepShort, reg) => Some (p ++ u "? ", reg)
    | _ => None
    end.

(** callable.rs 876-899: what a variable of the type of the value gets, with the heap; [None] is
    "Out of heap space". *)
Definition encode (h : heap) (d : cdatum) : option (heap * N) :=
  match d with
  | CBool b => Some (h, if b then 1 else 0)%N
  | CDouble x => Some (h, x)
  | CInt z => Some (h, i32_as_u64 z)
  | CText s => heap_push h (HText s)
  end.

(** cmds.rs 341-416 and callable.rs 990-994. *)
Definition input_exec (attempts : nat) (img : image) (pc : nat) (first : N) (c : ctx) (h : heap) (w : W)
  : option (upcall_result W) :=
  let arg := scope_get c first in
  let text_of raw := deref_text raw (i_constants img) h in
  let nargs := match nth_error (i_meta img) pc with Some m => length (m_args m) | None => 0 end in
  match input_prompt arg text_of nargs with
  | None => None
  | Some (prompt, reg) =>
      match tagged_ref_parse (arg reg) with
      | None => None
      | Some (index, t) =>
          match input_loop attempts t prompt [] w with
          | None => None
          | Some (w, Err msg) => Some (mkUpcall W (c_regs c) h w (Some (None, msg)))
          | Some (w, Ok d) =>
              match encode h d with
              | None => Some (mkUpcall W (c_regs c) h w (Some (None, u "Out of heap space")))
              | Some (h, raw) =>
                  if N.to_nat index <? length (c_regs c)
                  then Some (mkUpcall W (upd (c_regs c) (N.to_nat index) raw) h w None)
                  else None
              end
          end
      end
  end.

(** The other commands and functions. *)
Variable other : N -> N -> nat -> image -> ctx -> heap -> W -> option (upcall_result W).

(** vm/mod.rs 310-332. *)
Definition input_host (attempts : nat) (ups : list ustr) (idx first : N) (pc : nat) (img : image) (c : ctx) (h : heap) (w : W)
  : option (upcall_result W) :=
  match nth_error ups (N.to_nat idx) with
  | None => None
  | Some k =>
      if ustr_eqb k (u "INPUT") then input_exec attempts img pc first c h w
      else other idx first pc img c h w
  end.
End Input.

(** cmds.rs 284-331: the declaration. *)
Definition input_ref : singular_syntax := RequiredRef (u "vref") false true SepEndOnly.
Definition input_syntaxes : list callable_syntax :=
  [ mkSyntax [input_ref] None;
    mkSyntax [OptionalValue (u "prompt") TText (SepOneOf [SepLong; SepShort]); input_ref] None ].
Definition input_md : callable_md := mkMd (u "INPUT") None true input_syntaxes false.
