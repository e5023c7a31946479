(** Proofs about [HashMapWithIds]. *)
From Coq Require Import Permutation Sorted.
From Verif Require Import Base Ids_Model Ids_Spec.

Section Ids.
Context {K V : Type} (keqb : K -> K -> bool).
Hypothesis keqb_eq : forall a b, keqb a b = true <-> a = b.
Variable kdec : forall a b : K, {a = b} + {a <> b}.

Lemma keqb_refl k : keqb k k = true.
Proof. apply keqb_eq. reflexivity. Qed.

Lemma keqb_neq a b : a <> b -> keqb a b = false.
Proof. destruct (keqb a b) eqn:E; [apply keqb_eq in E; congruence|reflexivity]. Qed.

(** The map holds the keys [ord], each with its position as identifier. *)
Definition wf (m : @idmap K V) (ord : list K) : Prop :=
  map fst m = ord /\ map (fun e => snd (snd e)) m = map N.of_nat (seq 0 (length ord)) /\ NoDup ord.

Lemma wf_empty : wf id_empty [].
Proof. repeat split. constructor. Qed.

Lemma get_in (m : @idmap K V) k e : id_get keqb m k = Some e -> In (k, e) m.
Proof.
  induction m as [|[k' e'] m IH]; cbn; [discriminate|].
  destruct (keqb k' k) eqn:E; [|auto]. apply keqb_eq in E. intros H. left. congruence.
Qed.

Lemma get_none (m : @idmap K V) k : id_get keqb m k = None <-> ~ In k (map fst m).
Proof.
  induction m as [|[k' e'] m IH]; cbn; [tauto|].
  destruct (keqb k' k) eqn:E.
  - apply keqb_eq in E. split; [discriminate|]. intros H. exfalso. auto.
  - rewrite IH. assert (k' <> k) by (intros ->; rewrite keqb_refl in E; discriminate). tauto.
Qed.

Lemma hm_insert_new (m : @idmap K V) k e : ~ In k (map fst m) -> hm_insert keqb m k e = m ++ [(k, e)].
Proof.
  induction m as [|[k' e'] m IH]; cbn; intros H; [reflexivity|].
  rewrite keqb_neq by tauto. rewrite IH by tauto. reflexivity.
Qed.

Lemma hm_insert_keys (m : @idmap K V) k e : In k (map fst m) -> map fst (hm_insert keqb m k e) = map fst m.
Proof.
  induction m as [|[k' e'] m IH]; cbn; intros H; [tauto|].
  destruct (keqb k' k) eqn:E; cbn; [reflexivity|]. rewrite IH; [reflexivity|].
  destruct H as [->|H]; [rewrite keqb_refl in E; discriminate|assumption].
Qed.

Lemma hm_insert_ids (m : @idmap K V) k v i w : id_get keqb m k = Some (w, i) ->
  map (fun e => snd (snd e)) (hm_insert keqb m k (v, i)) = map (fun e => snd (snd e)) m.
Proof.
  induction m as [|[k' e'] m IH]; cbn; intros H; [discriminate|].
  destruct (keqb k' k) eqn:E; cbn; [injection H as ->; reflexivity|]. rewrite IH by assumption. reflexivity.
Qed.

Lemma hm_insert_get (m : @idmap K V) k e k' :
  id_get keqb (hm_insert keqb m k e) k' = if keqb k k' then Some e else id_get keqb m k'.
Proof.
  induction m as [|[k0 e0] m IH]; cbn; [reflexivity|].
  destruct (keqb k0 k) eqn:E; cbn.
  - apply keqb_eq in E. subst k0. destruct (keqb k k'); reflexivity.
  - destruct (keqb k0 k') eqn:E'; [|exact IH].
    apply keqb_eq in E'. subst k0. destruct (keqb k k') eqn:Q; [|reflexivity].
    apply keqb_eq in Q. subst. rewrite keqb_refl in E. discriminate.
Qed.

Lemma wf_get_pos m ord k v i : wf m ord -> id_get keqb m k = Some (v, i) ->
  is_position ord k (N.to_nat i).
Proof.
  intros (A & B & _) H. apply get_in in H. apply In_nth_error in H as [n H].
  unfold is_position. pose proof (map_nth_error (fun e => snd (snd e)) _ _ H) as X. cbn in X.
  rewrite B in X. pose proof (map_nth_error fst _ _ H) as Y. cbn in Y. rewrite A in Y.
  assert (L : n < length ord) by (apply nth_error_Some; congruence).
  rewrite (map_nth_error N.of_nat n (seq 0 (length ord)) (d := n)) in X.
  - injection X as <-. rewrite Nat2N.id. assumption.
  - rewrite nth_error_nth' with (d := 0) by (rewrite seq_length; lia). rewrite seq_nth by lia. reflexivity.
Qed.

Lemma wf_len m ord : wf m ord -> id_len m = length ord.
Proof. intros (A & _). unfold id_len. rewrite <- A, map_length. reflexivity. Qed.

Lemma wf_insert_new limit m ord k v : wf m ord -> ~ In k ord -> (N.of_nat (length ord) < limit)%N ->
  exists m', id_insert keqb limit m k v = Some (m', (None, N.of_nat (length ord))) /\ wf m' (ord ++ [k]) /\
    forall k', id_get keqb m' k' =
      if keqb k k' then Some (v, N.of_nat (length ord)) else id_get keqb m k'.
Proof.
  intros W N L. pose proof (wf_len _ _ W) as E. destruct W as (A & B & D).
  unfold id_insert. rewrite (proj2 (get_none m k)) by congruence. rewrite E.
  destruct (N.ltb_spec (N.of_nat (length ord)) limit); [|lia].
  eexists. split; [reflexivity|]. split; [|intros; apply hm_insert_get].
  rewrite hm_insert_new by congruence. split; [|split].
  - rewrite map_app, A. reflexivity.
  - rewrite map_app, B, app_length, Nat.add_comm. cbn [length Nat.add map snd].
    change (S (length ord)) with (1 + length ord). rewrite Nat.add_comm, seq_app, map_app. reflexivity.
  - apply Permutation_NoDup with (l := k :: ord).
    + apply Permutation_cons_append.
    + constructor; assumption.
Qed.

Lemma wf_insert_full limit m ord k v : wf m ord -> ~ In k ord -> (limit <= N.of_nat (length ord))%N ->
  id_insert keqb limit m k v = None.
Proof.
  intros W N L. pose proof (wf_len _ _ W) as E. destruct W as (A & B & D).
  unfold id_insert. rewrite (proj2 (get_none m k)) by congruence. rewrite E.
  destruct (N.ltb_spec (N.of_nat (length ord)) limit); [lia|reflexivity].
Qed.

Lemma wf_insert_old limit m ord k v : wf m ord -> In k ord ->
  exists prev i m', id_get keqb m k = Some (prev, i) /\
    id_insert keqb limit m k v = Some (m', (Some prev, i)) /\ wf m' ord /\
    forall k', id_get keqb m' k' = if keqb k k' then Some (v, i) else id_get keqb m k'.
Proof.
  intros W I. destruct W as (A & B & D).
  destruct (id_get keqb m k) as [[prev i]|] eqn:G; [|apply get_none in G; congruence].
  exists prev, i. unfold id_insert. rewrite G. eexists. split; [reflexivity|]. split; [reflexivity|].
  split; [|intros; apply hm_insert_get]. split; [|split].
  - rewrite hm_insert_keys by congruence. assumption.
  - erewrite hm_insert_ids by eassumption. assumption.
  - assumption.
Qed.

Lemma wf_set m ord k v : wf m ord -> wf (id_set keqb m k v) ord /\
  forall k', id_get keqb (id_set keqb m k v) k' =
    match id_get keqb m k' with
    | Some (w, i) => Some (if keqb k k' then v else w, i)
    | None => None
    end.
Proof.
  intros W. pose proof W as (A & B & D). unfold id_set.
  destruct (id_get keqb m k) as [[w i]|] eqn:G.
  - split; [split; [|split]|].
    + rewrite hm_insert_keys; [assumption|]. apply get_in in G. apply (in_map fst) in G. exact G.
    + erewrite hm_insert_ids by eassumption. assumption.
    + assumption.
    + intros k'. rewrite hm_insert_get. destruct (keqb k k') eqn:E.
      * apply keqb_eq in E. subst. rewrite G. reflexivity.
      * destruct (id_get keqb m k') as [[? ?]|]; reflexivity.
  - split; [assumption|]. intros k'. destruct (id_get keqb m k') as [[w i]|] eqn:G'; [|reflexivity].
    destruct (keqb k k') eqn:E; [|reflexivity]. apply keqb_eq in E. subst. congruence.
Qed.

(** * Sequences of insertions *)

(** Runs a sequence, ignoring failed insertions, as the callers do (they report the error). *)
Fixpoint run (limit : N) (m : idmap) (ops : list (K * V)) : idmap :=
  match ops with
  | [] => m
  | (k, v) :: r =>
      match id_insert keqb limit m k v with
      | Some (m', _) => run limit m' r
      | None => run limit m r
      end
  end.

Lemma run_wf limit ops : forall m ord, wf m ord ->
  wf (run limit m ops) (order kdec limit ord ops).
Proof.
  induction ops as [|[k v] ops IH]; intros m ord W; cbn [run order]; [assumption|].
  destruct (in_dec kdec k ord) as [I|I].
  - destruct (wf_insert_old limit m ord k v W I) as (p & i & m' & _ & E & W' & _). rewrite E. auto.
  - destruct (N.ltb_spec (N.of_nat (length ord)) limit) as [L|L].
    + destruct (wf_insert_new limit m ord k v W I L) as (m' & E & W' & _). rewrite E. auto.
    + rewrite (wf_insert_full limit m ord k v W I L). auto.
Qed.

Lemma order_in limit (ops : list (K * V)) : forall seen k, In k seen -> In k (order kdec limit seen ops).
Proof.
  induction ops as [|[k' v] ops IH]; intros seen k H; cbn [order]; [assumption|].
  destruct (in_dec kdec k' seen); [auto|]. destruct (_ <? _)%N; [|auto].
  apply IH. apply in_or_app. auto.
Qed.

Lemma order_only limit (ops : list (K * V)) : forall seen k, In k (order kdec limit seen ops) ->
  In k seen \/ In k (map fst ops).
Proof.
  induction ops as [|[k' v] ops IH]; intros seen k H; cbn [order] in H; [auto|]. cbn.
  destruct (in_dec kdec k' seen); [apply IH in H; tauto|].
  destruct (_ <? _)%N; apply IH in H.
  - destruct H as [H|H]; [apply in_app_or in H; cbn in H; tauto|tauto].
  - tauto.
Qed.

Lemma order_full limit (ops : list (K * V)) : forall seen, (limit <= N.of_nat (length seen))%N ->
  order kdec limit seen ops = seen.
Proof.
  induction ops as [|[k v] ops IH]; intros seen H; cbn [order]; [reflexivity|].
  destruct (in_dec kdec k seen); [auto|].
  destruct (N.ltb_spec (N.of_nat (length seen)) limit); [lia|auto].
Qed.

Lemma last_value_in k (ops : list (K * V)) : In k (map fst ops) -> exists v, last_value kdec k ops = Some v.
Proof.
  induction ops as [|[k' v] ops IH]; cbn; [tauto|]. intros H.
  destruct (last_value kdec k ops) as [w|] eqn:E; [eauto|].
  destruct (kdec k' k); [eauto|]. destruct H as [->|H]; [congruence|].
  destruct (IH H) as [w E']. congruence.
Qed.

Lemma order_bound limit (ops : list (K * V)) : forall seen, (N.of_nat (length seen) <= limit)%N ->
  (N.of_nat (length (order kdec limit seen ops)) <= limit)%N.
Proof.
  induction ops as [|[k v] ops IH]; intros seen H; cbn [order]; [assumption|].
  destruct (in_dec kdec k seen); [auto|].
  destruct (N.ltb_spec (N.of_nat (length seen)) limit); [|auto].
  apply IH. rewrite app_length. cbn. lia.
Qed.

Lemma order_app limit (ops ops' : list (K * V)) : forall seen,
  order kdec limit seen (ops ++ ops') = order kdec limit (order kdec limit seen ops) ops'.
Proof.
  induction ops as [|[k v] ops IH]; intros seen; cbn [order app]; [reflexivity|].
  destruct (in_dec kdec k seen); [auto|]. destruct (_ <? _)%N; auto.
Qed.

(** What looking up a key gives after a sequence. *)
Lemma run_get limit ops : forall m ord, wf m ord -> forall k,
  match id_get keqb (run limit m ops) k with
  | Some (v, i) => is_position (order kdec limit ord ops) k (N.to_nat i) /\
      match last_value kdec k ops with
      | Some w => v = w
      | None => exists i0, id_get keqb m k = Some (v, i0)
      end
  | None => ~ In k (order kdec limit ord ops)
  end.
Proof.
  induction ops as [|[k' v'] ops IH]; intros m ord W k.
  - cbn [run order last_value]. destruct (id_get keqb m k) as [[v i]|] eqn:G.
    + split; [eapply wf_get_pos; eassumption|eauto].
    + apply get_none in G. destruct W as (<- & _). assumption.
  - cbn [run order last_value]. destruct (in_dec kdec k' ord) as [I|I].
    + destruct (wf_insert_old limit m ord k' v' W I) as (p & i & m' & Gk & E & W' & G'). rewrite E.
      specialize (IH m' ord W' k). destruct (id_get keqb (run limit m' ops) k) as [[v j]|]; [|assumption].
      destruct IH as [P Q]. split; [assumption|].
      destruct (last_value kdec k ops); [assumption|]. destruct Q as [i0 Q]. rewrite G' in Q.
      destruct (kdec k' k) as [->|N].
      * rewrite keqb_refl in Q. congruence.
      * rewrite keqb_neq in Q by assumption. eauto.
    + destruct (N.ltb_spec (N.of_nat (length ord)) limit) as [L|L].
      * destruct (wf_insert_new limit m ord k' v' W I L) as (m' & E & W' & G'). rewrite E.
        specialize (IH m' _ W' k). destruct (id_get keqb (run limit m' ops) k) as [[v j]|]; [|assumption].
        destruct IH as [P Q]. split; [assumption|].
        destruct (last_value kdec k ops); [assumption|]. destruct Q as [i0 Q]. rewrite G' in Q.
        destruct (kdec k' k) as [->|N].
        -- rewrite keqb_refl in Q. congruence.
        -- rewrite keqb_neq in Q by assumption. eauto.
      * rewrite (wf_insert_full limit m ord k' v' W I L).
        specialize (IH m ord W k). destruct (id_get keqb (run limit m ops) k) as [[v j]|] eqn:R; [|assumption].
        destruct IH as [P Q]. split; [assumption|].
        destruct (last_value kdec k ops); [assumption|].
        destruct (kdec k' k) as [->|N]; [|assumption].
        exfalso. apply I. rewrite order_full in P by assumption. eapply nth_error_In. exact P.
Qed.

(** * Listing *)

Definition id_of (e : K * (V * N)) : N := snd (snd e).

Lemma insert_sorted_perm (x : K * (V * N)) l : Permutation (x :: l) (insert_sorted x l).
Proof.
  induction l as [|y l IH]; cbn; [reflexivity|]. destruct (_ <=? _)%N; [reflexivity|].
  rewrite perm_swap. constructor. assumption.
Qed.

Lemma sort_perm (l : @idmap K V) : Permutation l (sort_by_id l).
Proof.
  induction l as [|x l IH]; cbn; [constructor|]. rewrite <- insert_sorted_perm. constructor. assumption.
Qed.

Lemma insert_sorted_sorted (x : K * (V * N)) l :
  StronglySorted (fun a b => id_of a <= id_of b)%N l ->
  StronglySorted (fun a b => id_of a <= id_of b)%N (insert_sorted x l).
Proof.
  induction l as [|y l IH]; cbn; intros S.
  - repeat constructor.
  - inversion S as [|? ? S' F]; subst. destruct (N.leb_spec (snd (snd x)) (snd (snd y))) as [L|L].
    + constructor; [assumption|]. constructor; [exact L|].
      eapply Forall_impl; [|exact F]. intros a. unfold id_of. lia.
    + constructor; [auto|]. eapply Permutation_Forall; [apply insert_sorted_perm|].
      constructor; [unfold id_of; lia|assumption].
Qed.

Lemma sort_sorted (l : @idmap K V) : StronglySorted (fun a b => id_of a <= id_of b)%N (sort_by_id l).
Proof. induction l; cbn; [constructor|]. apply insert_sorted_sorted. assumption. Qed.

Lemma sorted_unique (l1 l2 : @idmap K V) :
  StronglySorted (fun a b => id_of a <= id_of b)%N l1 ->
  StronglySorted (fun a b => id_of a <= id_of b)%N l2 ->
  NoDup (map id_of l1) -> Permutation l1 l2 -> l1 = l2.
Proof.
  revert l2. induction l1 as [|x l1 IH]; intros l2 S1 S2 D P.
  - apply Permutation_nil in P. congruence.
  - destruct l2 as [|y l2]; [symmetry in P; apply Permutation_nil in P; discriminate|].
    inversion S1 as [|? ? S1' F1]; inversion S2 as [|? ? S2' F2]; subst.
    assert (E : x = y).
    { assert (I1 : In x (y :: l2)) by (eapply Permutation_in; [exact P|left; reflexivity]).
      assert (I2 : In y (x :: l1)) by (eapply Permutation_in; [symmetry; exact P|left; reflexivity]).
      destruct I1 as [->|I1]; [reflexivity|]. destruct I2 as [->|I2]; [reflexivity|].
      rewrite Forall_forall in F1, F2. specialize (F1 _ I2). specialize (F2 _ I1).
      cbn in D. inversion D as [|? ? N _]; subst. exfalso. apply N.
      replace (id_of x) with (id_of y) by lia. apply in_map. assumption. }
    subst y. f_equal. apply IH; auto.
    + cbn in D. inversion D. assumption.
    + eapply Permutation_cons_inv. exact P.
Qed.

Lemma wf_sorted m ord : wf m ord -> StronglySorted (fun a b => id_of a <= id_of b)%N m.
Proof.
  intros (A & B & _). remember 0 as s. clear Heqs.
  assert (L : length ord = length m) by (rewrite <- A, map_length; reflexivity).
  rewrite L in B. clear A L. revert s B. induction m as [|x m IH]; intros s B; [constructor|].
  cbn in B. injection B as Bx B. constructor; [eapply IH; exact B|].
  rewrite Forall_forall. intros y Iy. apply (in_map (fun e => snd (snd e))) in Iy. rewrite B in Iy.
  apply in_map_iff in Iy as (n & E & In). apply in_seq in In. unfold id_of. rewrite Bx, <- E. lia.
Qed.

Lemma wf_ids_nodup m ord : wf m ord -> NoDup (map id_of m).
Proof.
  intros (A & B & _). unfold id_of. rewrite B.
  apply FinFun.Injective_map_NoDup; [intros a b; lia|apply seq_NoDup].
Qed.

Lemma keys_listed m ord entries : wf m ord -> Permutation m entries -> keys_to_vec entries = ord.
Proof.
  intros W P. unfold keys_to_vec. rewrite <- (sorted_unique m (sort_by_id entries)).
  - apply W.
  - eapply wf_sorted. eassumption.
  - apply sort_sorted.
  - eapply wf_ids_nodup. eassumption.
  - rewrite P. apply sort_perm.
Qed.

End Ids.
