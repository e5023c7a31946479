(** C15: identifiers of interned items are stable, unique and dense. *)
From Coq Require Import Permutation.
From Verif Require Import Base Ids_Model Ids_Spec Ids_Proofs.

Section Props.
Context {K V : Type} (keqb : K -> K -> bool)
  (keqb_eq : forall a b, keqb a b = true <-> a = b)
  (kdec : forall a b : K, {a = b} + {a <> b}).

(** After any sequence of insertions a key that was accepted has as identifier its position among
    the accepted keys, in order of first insertion, and the value given last; any other key is
    absent. *)
Theorem C15_lookup : forall limit (ops : list (K * V)) k,
  match id_get keqb (run keqb limit id_empty ops) k with
  | Some (v, i) =>
      is_position (order kdec limit [] ops) k (N.to_nat i) /\ last_value kdec k ops = Some v
  | None => ~ In k (order kdec limit [] ops)
  end.
Proof.
  intros limit ops k. pose proof (run_get keqb keqb_eq kdec limit ops _ _ (wf_empty (V := V)) k) as H.
  destruct (id_get keqb (run keqb limit id_empty ops) k) as [[v i]|]; [|exact H].
  destruct H as [P Q]. split; [exact P|]. destruct (last_value kdec k ops); [congruence|].
  destruct Q as [? Q]. discriminate.
Qed.

(** No two accepted keys are equal, so different keys have different identifiers, and no key is
    accepted beyond the limit. *)
Theorem C15_order_distinct : forall limit (ops : list (K * V)),
  NoDup (order kdec limit [] ops) /\ (N.of_nat (length (order kdec limit [] ops)) <= limit)%N /\
  id_len (run keqb limit id_empty ops) = length (order kdec limit [] ops).
Proof.
  intros limit ops. pose proof (run_wf keqb keqb_eq kdec limit ops _ _ (wf_empty (V := V))) as W.
  split; [apply W|]. split; [apply (order_bound keqb keqb_eq); cbn; lia|]. eapply wf_len. exact W.
Qed.

(** One more insertion after any sequence: a known key keeps its identifier, returns the previous
    value and takes the new one; a new key takes the next identifier; and without identifiers left
    the insertion is refused.  No other key is affected. *)
Theorem C15_insert : forall limit (ops : list (K * V)) k v,
  let m := run keqb limit id_empty ops in
  let ord := order kdec limit [] ops in
  match id_insert keqb limit m k v with
  | Some (m', (prev, i)) =>
      prev = (if in_dec kdec k ord then last_value kdec k ops else None) /\
      is_position (order kdec limit [] (ops ++ [(k, v)])) k (N.to_nat i) /\
      id_get keqb m' k = Some (v, i) /\
      (forall k', k' <> k -> id_get keqb m' k' = id_get keqb m k') /\
      (forall w j, id_get keqb m k = Some (w, j) -> j = i)
  | None => ~ In k ord /\ N.of_nat (length ord) = limit
  end.
Proof.
  intros limit ops k v m ord.
  pose proof (run_wf keqb keqb_eq kdec limit ops _ _ (wf_empty (V := V))) as W.
  pose proof (C15_lookup limit ops k) as L. fold m in W, L. fold ord in W, L.
  rewrite order_app. fold ord. cbn [order].
  destruct (in_dec kdec k ord) as [I|I].
  - destruct (wf_insert_old keqb keqb_eq limit m ord k v W I) as (p & i & m' & G & E & _ & G').
    rewrite E. rewrite G in L. destruct L as [P Q].
    repeat split; auto.
    + rewrite G', keqb_refl by assumption. reflexivity.
    + intros k' N. rewrite G', keqb_neq by (assumption || congruence). reflexivity.
    + intros w j H. congruence.
  - assert (G : id_get keqb m k = None).
    { apply get_none; [assumption|]. destruct W as (-> & _). assumption. }
    destruct (N.ltb_spec (N.of_nat (length ord)) limit) as [B|B].
    + destruct (wf_insert_new keqb keqb_eq kdec limit m ord k v W I B) as (m' & E & _ & G').
      rewrite E. repeat split; auto.
      * unfold is_position. rewrite Nat2N.id, nth_error_app2, Nat.sub_diag by lia. reflexivity.
      * rewrite G', keqb_refl by assumption. reflexivity.
      * intros k' N. rewrite G', keqb_neq by (assumption || congruence). reflexivity.
      * intros w j H. congruence.
    + rewrite (wf_insert_full keqb keqb_eq kdec limit m ord k v W I B).
      split; [assumption|]. apply N.le_antisymm; [|assumption]. apply (order_bound keqb keqb_eq). cbn. lia.
Qed.

(** Listing gives the keys in identifier order, whatever the iteration order of the hash map. *)
Theorem C15_listing : forall limit (ops : list (K * V)) entries start,
  Permutation (run keqb limit id_empty ops) entries ->
  keys_to_vec entries = order kdec limit [] ops /\
  keys_to_vec_from entries start = skipn start (order kdec limit [] ops).
Proof.
  intros limit ops entries start P.
  pose proof (run_wf keqb keqb_eq kdec limit ops _ _ (wf_empty (V := V))) as W.
  unfold keys_to_vec_from. rewrite (keys_listed _ _ _ W P). auto.
Qed.

(** Writing through a mutable reference changes that value and nothing else. *)
Theorem C15_update : forall limit (ops : list (K * V)) k v k',
  id_get keqb (id_set keqb (run keqb limit id_empty ops) k v) k' =
    match id_get keqb (run keqb limit id_empty ops) k' with
    | Some (w, i) => Some (if kdec k k' then v else w, i)
    | None => None
    end.
Proof.
  intros. pose proof (run_wf keqb keqb_eq kdec limit ops _ _ (wf_empty (V := V))) as W.
  rewrite (proj2 (wf_set keqb keqb_eq _ _ k v W)). destruct (id_get _ _ k') as [[w i]|]; [|reflexivity].
  destruct (kdec k k') as [->|N]; [rewrite keqb_refl|rewrite keqb_neq]; auto.
Qed.

End Props.

Print Assumptions C15_lookup.
Print Assumptions C15_order_distinct.
Print Assumptions C15_insert.
Print Assumptions C15_listing.
Print Assumptions C15_update.

(** Three keys with room for two: the third is refused, the first keeps identifier 0. *)
Example C15_case :
  let ops := [(7, true); (9, true); (4, true); (7, false)] in
  let m := run Nat.eqb 2 id_empty ops in
  order Nat.eq_dec 2 [] ops = [7; 9] /\ id_get Nat.eqb m 7 = Some (false, 0%N) /\
  id_get Nat.eqb m 4 = None /\ keys_to_vec (rev m) = [7; 9].
Proof. repeat split. Qed.
