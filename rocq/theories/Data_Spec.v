(** Reading data, with the values still to be read instead of an index. *)
From Verif Require Import Base Bytecode_Model Mem_Model Num_Model Data_Model.

Inductive data_op := OpRead (targets : list etype) | OpRestore.

(** What a variable of type [t] holds after reading [d]: the same value, or the same number in the
    other numeric type when it is representable; nothing else is accepted. *)
Definition accepts_value (t : etype) (d v : cdatum) : Prop :=
  match t, d with
  | TDouble, CInt i => v = CDouble (f64_of_i32 i)
  | TInteger, CDouble x => exists i, double_to_integer x = Some i /\ v = CInt i
  | _, _ => cdatum_etype d = t /\ v = d
  end.

Definition default_value (t : etype) (v : cdatum) : Prop :=
  v = match t with TBoolean => CBool false | TDouble => CDouble 0 | TInteger => CInt 0 | TText => CText [] end.

(** One READ with [left] values to be read takes them in order until one is missing or does not
    fit; [left'] are the remaining ones. *)
Inductive reads : list (option cdatum) -> list etype -> list cdatum -> list (option cdatum) -> bool -> Prop :=
| reads_done left : reads left [] [] left true
| reads_value d left t ts v vs left' ok : accepts_value t d v -> reads left ts vs left' ok ->
    reads (Some d :: left) (t :: ts) (v :: vs) left' ok
| reads_default left t ts v vs left' ok : default_value t v -> reads left ts vs left' ok ->
    reads (None :: left) (t :: ts) (v :: vs) left' ok
| reads_out t ts : reads [] (t :: ts) [] [] false
| reads_misfit d left t ts : (forall v, ~ accepts_value t d v) ->
    reads (Some d :: left) (t :: ts) [] left false.

(** A history of operations over all the [data], as seen by a user: the values assigned by each
    READ and whether it succeeded. *)
Inductive history (data : list (option cdatum)) :
  list data_op -> list (option cdatum) -> list (list cdatum * bool) -> Prop :=
| history_start : history data [] data []
| history_read ops left out ts vs left' ok : history data ops left out -> reads left ts vs left' ok ->
    history data (ops ++ [OpRead ts]) left' (out ++ [(vs, ok)])
| history_restore ops left out : history data ops left out ->
    history data (ops ++ [OpRestore]) data out.

(** The same history executed. *)
Fixpoint exec_ops (data : list (option cdatum)) (index : nat) (ops : list data_op)
  : nat * list (list cdatum * bool) :=
  match ops with
  | [] => (index, [])
  | OpRestore :: r => exec_ops data exec_restore r
  | OpRead ts :: r =>
      match exec_read data index ts with
      | (vs, index', e) =>
          let (i, out) := exec_ops data index' r in
          (i, (vs, match e with None => true | Some _ => false end) :: out)
      end
  end.
