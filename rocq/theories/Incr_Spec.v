(** What incremental compilation promises. *)
From Verif Require Import Base Bytecode_Model Mem_Model Vm_Model Ast_Model Syms_Model Codegen_Model
  Top_Model.

(** An interactive session: a new compiler with an empty image, given inputs one after the
    other whatever becomes of each of them. *)
Inductive session (upcalls : list (ustr * callable_md)) (defs : list global_def)
  : list source -> compiler -> cimage -> Prop :=
| session_start : forall k, compiler_new upcalls defs = COk k ->
    session upcalls defs [] k cimage_default
| session_input : forall srcs src k img o k' img',
    session upcalls defs srcs k img -> compile_more k img src = (o, k', img') ->
    session upcalls defs (srcs ++ [src]) k' img'.

(** Feeding inputs one after the other, with the result of each. *)
Fixpoint feed (srcs : list source) (k : compiler) (img : cimage) : list outcome * compiler * cimage :=
  match srcs with
  | [] => ([], k, img)
  | src :: rest =>
      let '(o, k1, img1) := compile_more k img src in
      let '(os, k2, img2) := feed rest k1 img1 in (o :: os, k2, img2)
  end.

Definition succeeded (o : outcome) : bool := match o with Compiled => true | _ => false end.

(** The inputs that compiled. *)
Fixpoint accepted (srcs : list source) (os : list outcome) : list source :=
  match srcs, os with
  | s :: srcs', o :: os' => if succeeded o then s :: accepted srcs' os' else accepted srcs' os'
  | _, _ => []
  end.

(** Everything below the last position of [old] is in [new] at the same position. *)
Definition kept_but_last {A} (old new : list A) : Prop :=
  forall i x, S i < length old -> nth_error old i = Some x -> nth_error new i = Some x.
Definition kept {A} (old new : list A) : Prop :=
  forall i x, nth_error old i = Some x -> nth_error new i = Some x.

Record only_appended (old new : cimage) : Prop := mkOnlyAppended {
  oa_code : kept_but_last (ci_code old) (ci_code new);
  oa_meta : kept_but_last (ci_instrs old) (ci_instrs new);
  oa_constants : kept (ci_constants old) (ci_constants new);
  oa_data : kept (ci_data old) (ci_data new);
  oa_upcalls : kept (ci_upcalls old) (ci_upcalls new);
  oa_globals : forall v, In v (ci_globals old) -> In v (ci_globals new);
  oa_program : forall v, In v (ci_program old) -> In v (ci_program new);
  oa_longer : length (ci_code old) <= length (ci_code new)
}.
