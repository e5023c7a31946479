(** Properties C04, C06, C07: array elements, the heap and data pointers. *)
From Verif Require Import Base Bytecode_Model Mem_Model Mem_Spec Mem_Proofs.
Local Open Scope N_scope.

(** In-range subscripts give the element's position; otherwise the first offending subscript
    is the one reported. *)
Theorem C04_flat_index_result :
  forall dims subs, length subs = length dims ->
  (valid_subs dims subs -> flat_index dims subs = Ok (position dims subs)) /\
  (~ valid_subs dims subs ->
   exists s d, first_bad dims subs s d /\
     flat_index dims subs = Err (if (s <? 0)%Z then SubNegative s else SubExceeds (Z.to_N s) d)).
Proof. exact flat_index_char. Qed.
Print Assumptions C04_flat_index_result.

(** Distinct elements have distinct positions and every position below the element count is
    some element's. *)
Theorem C04_positions_are_a_bijection :
  forall dims,
  (forall subs, valid_subs dims subs -> position dims subs < product dims) /\
  (forall a b, valid_subs dims a -> valid_subs dims b -> position dims a = position dims b -> a = b) /\
  (forall i, i < product dims -> exists subs, valid_subs dims subs /\ position dims subs = i).
Proof. exact (fun d => conj (position_lt d) (conj (position_inj d) (position_surj d))). Qed.
Print Assumptions C04_positions_are_a_bijection.

Example C04_case :
  valid_subs [3; 4; 5] [2; 0; 4]%Z /\ flat_index [3; 4; 5] [2; 0; 4]%Z = Ok 50 /\
  flat_index [3; 4; 5] [2; 4; -1]%Z = Err (SubExceeds 4 4) /\
  flat_index [3; 4; 5] [2; -4; 9]%Z = Err (SubNegative (-4)) /\ product [3; 4; 5] = 60.
Proof. repeat split. repeat constructor; lia. Qed.

(** What one allocation does to a heap reachable from a fresh one. *)
Theorem C06_push_result :
  forall h d, heap_ok h ->
  match heap_push h d with
  | Some (h', p) =>
      heap_ok h' /\ h_max h' = h_max h /\
      (forall i e, heap_get h i = Some e -> heap_get h' i = Some e) /\
      (exists i, ptr_from p = Some (PHeap i) /\ heap_get h' i = Some d /\
         (d <> HText [] -> heap_get h i = None)) /\
      (d = HText [] -> h' = h) /\ (d <> HText [] -> heap_len h' = heap_len h + 1)
  | None => d <> HText [] /\ N.min (2 ^ 24) (h_max h) <= heap_len h
  end.
Proof.
  intros h d K. pose proof (heap_push_char h d K) as C. destruct (heap_push h d) as [[h' p]|] eqn:E.
  - exact (conj (heap_push_ok _ _ _ _ K E) C).
  - exact C.
Qed.
Print Assumptions C06_push_result.

(** Any sequence of allocations: every datum is still there at the end, under its own pointer. *)
Theorem C06_allocations_are_kept :
  forall max ds h ps, push_all (heap_new max) ds = Some (h, ps) ->
  Forall2 (fun d p => exists i, ptr_from p = Some (PHeap i) /\ heap_get h i = Some d) ds ps /\
  (forall i j di dj pi pj, (i < j)%nat ->
     nth_error ds i = Some di -> nth_error ds j = Some dj ->
     nth_error ps i = Some pi -> nth_error ps j = Some pj -> dj <> HText [] -> pi <> pj).
Proof.
  exact (fun max ds h ps E =>
    conj (proj2 (proj2 (push_all_char ds _ _ _ (heap_ok_new max) E)))
         (fun i j di dj pi pj L => push_all_distinct ds _ _ _ i j di dj pi pj (heap_ok_new max) E L)).
Qed.
Print Assumptions C06_allocations_are_kept.

Theorem C06_clear_empties :
  forall h, heap_ok (heap_clear h) /\ heap_len (heap_clear h) = 1 /\ h_max (heap_clear h) = h_max h /\
  heap_get (heap_clear h) 0 = Some (HText []).
Proof. exact (fun h => conj (heap_ok_new _) (conj eq_refl (conj eq_refl eq_refl))). Qed.
Print Assumptions C06_clear_empties.

Example C06_case :
  push_all (heap_new 3) [HText [65]; HText []; HArray [2] [0; 0]] =
    Some (mkHeap [HText []; HText [65]; HArray [2] [0; 0]] 3, [2^64 - 2; 2^64 - 1; 2^64 - 3]) /\
  push_all (heap_new 2) [HText [65]; HText [66]] = None /\ heap_ok (heap_new 3).
Proof. repeat split; cbn; lia. Qed.

Theorem C07_pointer_roundtrip :
  (forall i, i < 2 ^ 24 -> ptr_from (ptr_for_heap i) = Some (PHeap i) /\ ptr_for_heap i < 2 ^ 64) /\
  (forall i, i < 2 ^ 24 -> ptr_from i = Some (PConstant i)) /\
  (forall i j, i < 2 ^ 24 -> j < 2 ^ 24 -> ptr_for_heap i <> j).
Proof.
  split; [|split; [exact ptr_from_constant|]].
  - intros i H. exact (conj (ptr_from_heap i H) (i32_as_u64_lt _)).
  - intros i j Hi Hj E. pose proof (ptr_from_heap i Hi) as A.
    rewrite E, (ptr_from_constant j Hj) in A. discriminate.
Qed.
Print Assumptions C07_pointer_roundtrip.

(** A string reachable through a pointer reads the same after allocating more data or after
    adding constants, and a freshly allocated string reads back as itself. *)
Theorem C07_strings_stay_put :
  (forall h d h' p v cs s, heap_ok h -> heap_push h d = Some (h', p) ->
     deref_text v cs h = Some s -> deref_text v cs h' = Some s) /\
  (forall v cs cs' h s, deref_text v cs h = Some s -> deref_text v (cs ++ cs') h = Some s) /\
  (forall h s h' p cs, heap_ok h -> heap_push h (HText s) = Some (h', p) ->
     deref_text p cs h' = Some s).
Proof. exact (conj resolve_push (conj resolve_append heap_push_text_deref)). Qed.
Print Assumptions C07_strings_stay_put.

Example C07_case :
  ptr_for_heap 5 = 0xfffffffffffffffa /\ ptr_from 0xfffffffffffffffa = Some (PHeap 5) /\
  ptr_from 0xff000000 = Some (PHeap 0xffffff) /\ ptr_from 0x80000000 = None /\
  deref_text 1 [CInt 3; CText [65]] (heap_new 9) = Some [65].
Proof. repeat split. Qed.
