(** Programs that install no error handler that jumps. *)
From Verif Require Import Base Ast_Model Top_Model.

(** Statements in which ON ERROR GOTO does not occur. *)
Fixpoint goto_free (s : stmt) : bool :=
  match s with
  | StOnError (OnGoto _ _ _) => false
  | StCallable _ _ _ body _ => forallb goto_free body
  | StDo _ body => forallb goto_free body
  | StFor _ _ _ _ _ _ body => forallb goto_free body
  | StIf bs => forallb (fun b => forallb goto_free (snd b)) bs
  | StSelect _ cs _ => forallb (fun c => forallb goto_free (snd c)) cs
  | StWhile _ body => forallb goto_free body
  | _ => true
  end.
Definition without_on_error_goto (src : source) : Prop := forallb goto_free (fst src) = true.
