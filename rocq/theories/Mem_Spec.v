(** What arrays and the heap are expected to do, without reference to the model's loops. *)
From Verif Require Import Base Mem_Model.
Local Open Scope N_scope.

(** Number of elements of an array with these dimensions. *)
Fixpoint product (dims : list N) : N :=
  match dims with [] => 1 | d :: r => d * product r end.

(** A subscript list that names an element: as many subscripts as dimensions, each within its
    dimension. *)
Definition valid_subs (dims : list N) (subs : list Z) : Prop :=
  Forall2 (fun s d => (0 <= s < Z.of_N d)%Z) subs dims.

(** Position of an element when the first subscript varies fastest. *)
Fixpoint position (dims : list N) (subs : list Z) : N :=
  match dims, subs with
  | d :: dims', s :: subs' => Z.to_N s + d * position dims' subs'
  | _, _ => 0
  end.

(** [bad] is the first subscript out of range and [d] its dimension. *)
Definition first_bad (dims : list N) (subs : list Z) (bad : Z) (d : N) : Prop :=
  exists dims1 dims2 subs1 subs2,
    dims = dims1 ++ d :: dims2 /\ subs = subs1 ++ bad :: subs2 /\
    valid_subs dims1 subs1 /\ ~ (0 <= bad < Z.of_N d)%Z.

(** What every heap reachable from a fresh one satisfies: the shared empty string is in place
    and the size fits the pointers. *)
Definition heap_ok (h : heap) : Prop :=
  nth_error (h_data h) 0 = Some (HText []) /\ heap_len h <= 2 ^ 24.

(** Pushing a whole list of data in order. *)
Fixpoint push_all (h : heap) (ds : list hdatum) : option (heap * list N) :=
  match ds with
  | [] => Some (h, [])
  | d :: r =>
      match heap_push h d with
      | None => None
      | Some (h1, p) =>
          match push_all h1 r with None => None | Some (h2, ps) => Some (h2, p :: ps) end
      end
  end.

