(** What console specifications mean. *)
From Coq Require Import String Permutation Sorted.
From Verif Require Import Base Lex_Spec Storage_Spec Conspec_Model.
Local Open Scope string_scope.
Local Open Scope list_scope.
Local Open Scope N_scope.

(** A number of digits, with or without a plus before them. *)
Definition number_text (limit : N) (s : ustr) (v : N) : Prop := exists d, (s = d \/ s = u "+" ++ d) /\ numeral 10 d v /\ v <= limit.
(** Why a text is not a positive number. *)
Inductive not_positive (limit : N) (s : ustr) : ustr -> Prop :=
| Not_empty : s = [] -> not_positive limit s (u "cannot parse integer from empty string")
| Not_zero : number_text limit s 0 -> not_positive limit s (u "number would be zero for non-zero type")
| Not_large d v r : (s = d ++ r \/ s = u "+" ++ d ++ r) -> numeral 10 d v -> limit < v -> not_positive limit s (u "number too large to fit in target type")
| Not_only_plus : s = u "+" -> not_positive limit s (u "invalid digit found in string")
| Not_digit c : In c s -> (forall d, digit_value c d -> 10 <= d) -> not_positive limit s (u "invalid digit found in string").

Definition size_text (s : ustr) (w h : N) : Prop :=
  exists a b, s = a ++ u "x" ++ b /\ number_text (2 ^ 32 - 1) a w /\ number_text (2 ^ 32 - 1) b h /\ 0 < w /\ 0 < h.
Inductive resolution_text : ustr -> resolution -> Prop :=
| Text_desktop : resolution_text (u "fs") FullScreenDesktop
| Text_full s w h : size_text s w h -> resolution_text (s ++ u "fs") (FullScreen w h)
| Text_windowed s w h : size_text s w h -> resolution_text s (Windowed w h).

(** Why a text is not a resolution; [fs] is there or not. *)
Inductive not_resolution (s : ustr) : ustr -> Prop :=
| No_size : (~ In 120 s) -> not_resolution s (u "Invalid resolution " ++ s ++ u ": must be of the form [WIDTHxHEIGHT][fs]")
| No_width a b e : s = a ++ u "x" ++ b -> ~ In 120 a -> not_positive (2 ^ 32 - 1) a e ->
    not_resolution s (u "Invalid width " ++ a ++ u " in resolution " ++ s ++ u ": " ++ e)
| No_height a b fs e : s = a ++ u "x" ++ b ++ fs -> ~ In 120 a -> (fs = [] /\ (forall p, b <> p ++ u "fs") \/ fs = u "fs") -> not_positive (2 ^ 32 - 1) b e ->
    not_resolution s (u "Invalid height " ++ b ++ u " in resolution " ++ s ++ u ": " ++ e).

(** A specification of the driver with those flags. *)
Fixpoint with_commas (items : list ustr) : ustr :=
  match items with [] => [] | [x] => x | x :: r => x ++ u "," ++ with_commas r end.
Inductive specifies : ustr -> ustr -> list ustr -> Prop :=
| Specifies_driver d : d <> [] -> ~ In 58 d -> specifies d d []
| Specifies_flags d items : ~ In 58 d -> (forall i, In i items -> ~ In 44 i) -> specifies (d ++ u ":" ++ with_commas items) d items.

(** The flags that are asked for, plain and with a value. *)
Inductive asked := Plain (f : ustr) | Keyed (k : ustr).
Definition name_of (q : asked) : ustr := match q with Plain f => f | Keyed k => k end.
Definition value_given (items : list ustr) (k v : ustr) : Prop := ~ In 61 k /\ exists l1 l2, items = l1 ++ (k ++ u "=" ++ v) :: l2 /\
  (forall v', ~ In (k ++ u "=" ++ v') l2).
Definition is_given (items : list ustr) (q : asked) : Prop :=
  match q with
  | Plain f => In f items /\ f <> [] /\ ~ In 61 f
  | Keyed k => exists v, value_given items k v
  end.

(** Asking for them in that order. *)
Definition ask (c : cspec) (q : asked) : cspec := match q with Plain f => snd (take_flag f c) | Keyed k => snd (take_keyed_flag_str k c) end.

(** The flags left that nobody asked for. *)
Definition left_over (items : list ustr) (qs left : list asked) : Prop := NoDup left /\ (forall q, In q left <-> is_given items q /\ ~ In q qs).
Definition in_order (l : list ustr) : Prop := Sorted (fun a b => a = b \/ less a b) l.
Definition listed (l : list ustr) : ustr := match l with [] => [] | x :: r => x ++ flat_map (fun y => u ", " ++ y) r end.
