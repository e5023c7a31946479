(** What interning should do, in terms of the sequence of insertions only. *)
From Verif Require Import Base.

Section Spec.
Context {K V : Type} (kdec : forall a b : K, {a = b} + {a <> b}).

(** Keys in order of first insertion; a new key is dropped once [limit] are present. *)
Fixpoint order (limit : N) (seen : list K) (ops : list (K * V)) : list K :=
  match ops with
  | [] => seen
  | (k, _) :: r =>
      if in_dec kdec k seen then order limit seen r
      else if (N.of_nat (length seen) <? limit)%N then order limit (seen ++ [k]) r
      else order limit seen r
  end.

(** The value given by the last insertion of [k]. *)
Fixpoint last_value (k : K) (ops : list (K * V)) : option V :=
  match ops with
  | [] => None
  | (k', v) :: r =>
      match last_value k r with
      | Some w => Some w
      | None => if kdec k' k then Some v else None
      end
  end.

(** [i] is the position of [k] in [l]. *)
Definition is_position (l : list K) (k : K) (i : nat) : Prop := nth_error l i = Some k.

End Spec.
