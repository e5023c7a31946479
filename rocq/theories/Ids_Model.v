(** Model of core/src/compiler/ids.rs: [HashMapWithIds].

    A hash map is an association list; its iteration order is unspecified in Rust, so functions
    that iterate take the entries in whatever order the iterator yields them. *)
From Verif Require Import Base.

Section Ids.
Context {K V : Type} (keqb : K -> K -> bool).

(** ids.rs 27-30. *)
Definition idmap := list (K * (V * N)).

(** ids.rs 32-36. *)
Definition id_empty : idmap := [].

(** ids.rs 47-49. *)
Fixpoint id_get (m : idmap) (k : K) : option (V * N) :=
  match m with
  | [] => None
  | (k', e) :: r => if keqb k' k then Some e else id_get r k
  end.

(** [HashMap::insert] of an existing or new key. *)
Fixpoint hm_insert (m : idmap) (k : K) (e : V * N) : idmap :=
  match m with
  | [] => [(k, e)]
  | (k', e') :: r => if keqb k' k then (k', e) :: r else (k', e') :: hm_insert r k e
  end.

(** ids.rs 54-56: a write through the reference that [get_mut] returns. *)
Definition id_set (m : idmap) (k : K) (v : V) : idmap :=
  match id_get m k with
  | Some (_, i) => hm_insert m k (v, i)
  | None => m
  end.

(** ids.rs 84-86. *)
Definition id_len (m : idmap) : nat := length m.

(** ids.rs 66-81.  [limit] is the number of values of the identifier type, so that
    [I::try_from(n)] succeeds iff [n < limit]. *)
Definition id_insert (limit : N) (m : idmap) (k : K) (v : V) : option (idmap * (option V * N)) :=
  match id_get m k with
  | Some (prev, i) => Some (hm_insert m k (v, i), (Some prev, i))
  | None =>
      let i := N.of_nat (id_len m) in
      if (i <? limit)%N then Some (hm_insert m k (v, i), (None, i)) else None
  end.

(** [sort_by_key] on the identifier (ids.rs 96). *)
Fixpoint insert_sorted (x : K * (V * N)) (l : idmap) : idmap :=
  match l with
  | [] => [x]
  | y :: r => if (snd (snd x) <=? snd (snd y))%N then x :: l else y :: insert_sorted x r
  end.
Fixpoint sort_by_id (l : idmap) : idmap :=
  match l with [] => [] | x :: r => insert_sorted x (sort_by_id r) end.

(** ids.rs 94-98, 101-103, given the entries in iteration order. *)
Definition keys_to_vec (entries : idmap) : list K := map fst (sort_by_id entries).
Definition keys_to_vec_from (entries : idmap) (start : nat) : list K :=
  skipn start (keys_to_vec entries).

End Ids.
