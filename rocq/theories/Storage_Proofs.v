(** Lemmas on storage. *)
From Verif Require Import Base Storage_Model Storage_Spec.
Local Open Scope N_scope.

(** * Splitting *)

Lemma split_none : forall s, ~ In 58 s -> split_on 58 s = [s].
Proof.
  induction s as [|c s IH]; intros H; cbn [split_on]; [reflexivity|].
  destruct (c =? 58) eqn:E; [apply N.eqb_eq in E; exfalso; apply H; left; exact E|].
  rewrite IH; [reflexivity|]. intros I. apply H. right. exact I.
Qed.
Lemma split_sep : forall a b, ~ In 58 a -> split_on 58 (a ++ 58 :: b) = a :: split_on 58 b.
Proof.
  induction a as [|c a IH]; intros b H; cbn [split_on app]; [rewrite N.eqb_refl; reflexivity|].
  destruct (c =? 58) eqn:E; [apply N.eqb_eq in E; exfalso; apply H; left; exact E|].
  rewrite IH; [reflexivity|]. intros I. apply H. right. exact I.
Qed.
Lemma split_cases : forall s, (~ In 58 s) \/ exists a b, s = a ++ 58 :: b /\ ~ In 58 a.
Proof.
  induction s as [|c s IH]; [left; intros []|].
  destruct (N.eq_dec c 58) as [->|NE]; [right; exists [], s; auto|].
  destruct IH as [H|(a & b & -> & H)]; [left|right].
  - intros [E|I]; [congruence|auto].
  - exists (c :: a), b. split; [reflexivity|]. intros [E|I]; [congruence|auto].
Qed.
Lemma split_nonempty : forall s, split_on 58 s <> [].
Proof.
  intros s. destruct (split_cases s) as [H|(a & b & -> & H)]; [rewrite split_none by exact H|rewrite split_sep by exact H]; discriminate.
Qed.

(** * Paths *)

Lemma existsb_false : forall A (f : A -> bool) l, existsb f l = false <-> forall x, In x l -> f x = false.
Proof.
  intros A f l. induction l as [|y l IH]; cbn [existsb]; [split; [intros _ x []|reflexivity]|].
  rewrite orb_false_iff, IH. split.
  - intros [H1 H2] x [->|I]; auto.
  - intros H. split; [apply H; left; reflexivity|intros x I; apply H; right; exact I].
Qed.

Fixpoint count (c : N) (s : ustr) : N := match s with [] => 0 | x :: r => (if x =? c then 1 else 0) + count c r end.
Lemma fold_count : forall s a, fold_left (fun a c => if c =? 47 then a + 1 else a) s a = a + count 47 s.
Proof.
  induction s as [|c s IH]; intros a; cbn [fold_left count]; [lia|]. rewrite IH. destruct (c =? 47); lia.
Qed.
Lemma count_zero : forall s, count 47 s = 0 <-> ~ In 47 s.
Proof.
  induction s as [|c s IH]; cbn [count In]; [split; [intros _ []|reflexivity]|].
  destruct (c =? 47) eqn:E.
  - apply N.eqb_eq in E as ->. split; [lia|intros H; exfalso; apply H; left; reflexivity].
  - apply N.eqb_neq in E. rewrite N.add_0_l, IH. tauto.
Qed.

Lemma path_valid_iff : forall s, is_path_valid s = true <-> s <> [] /\ forall c, In c s -> c <> 58 /\ c <> 92.
Proof.
  intros s. unfold is_path_valid, colon, backslash. rewrite andb_true_iff, !negb_true_iff, existsb_false. split.
  - intros [H1 H2]. split; [destruct s; discriminate|]. intros c I. specialize (H2 c I).
    apply orb_false_iff in H2 as [A B]. apply N.eqb_neq in A, B. auto.
  - intros [H1 H2]. split; [destruct s; [contradiction|reflexivity]|]. intros c I. destruct (H2 c I) as [A B].
    apply N.eqb_neq in A, B. rewrite A, B. reflexivity.
Qed.

(** The path kept for a path. *)
Definition kept (p : ustr) : ustr := match p with [] => [47] | _ => p end.

Lemma file_name_check : forall n, file_name n -> check_path n = Ok n /\ check_path (47 :: n) = Ok (47 :: n).
Proof.
  intros n (H1 & H2 & H3 & H4). unfold check_path, dot, slash.
  assert (C : count 47 n = 0) by (apply count_zero; intros I; destruct (H2 _ I) as (_ & _ & K); contradiction).
  assert (V : is_path_valid n = true) by (apply path_valid_iff; split; [exact H1|intros c I; destruct (H2 c I) as (A & B & _); auto]).
  assert (V' : is_path_valid (47 :: n) = true).
  { apply path_valid_iff. split; [discriminate|]. intros c [<-|I]; [split; discriminate|]. destruct (H2 c I) as (A & B & _); auto. }
  destruct n as [|c n]; [contradiction|]. rewrite V, V'. cbn [negb orb].
  assert (NS : c <> 47) by (apply (H2 c); left; reflexivity).
  assert (E1 : ustr_eqb (c :: n) [46] = false) by (apply ustr_eqb_neq; exact H3).
  assert (E2 : ustr_eqb (c :: n) [46; 46] = false) by (apply ustr_eqb_neq; exact H4).
  assert (E3 : ustr_eqb (c :: n) [47; 46] = false) by (apply ustr_eqb_neq; congruence).
  assert (E4 : ustr_eqb (c :: n) [47; 46; 46] = false) by (apply ustr_eqb_neq; congruence).
  assert (E5 : ustr_eqb (47 :: c :: n) [46] = false) by (apply ustr_eqb_neq; congruence).
  assert (E6 : ustr_eqb (47 :: c :: n) [46; 46] = false) by (apply ustr_eqb_neq; congruence).
  assert (E7 : ustr_eqb (47 :: c :: n) [47; 46] = false) by (apply ustr_eqb_neq; congruence).
  assert (E8 : ustr_eqb (47 :: c :: n) [47; 46; 46] = false) by (apply ustr_eqb_neq; congruence).
  rewrite E1, E2, E3, E4, E5, E6, E7, E8. cbn [orb]. rewrite !fold_count.
  split.
  - rewrite C. reflexivity.
  - cbn [count]. cbn [count] in C. rewrite C. reflexivity.
Qed.

Lemma check_path_ok : forall p n, path_names p n -> check_path p = Ok (kept p).
Proof.
  intros p n H. destruct H as [| |n F|n F]; [reflexivity|reflexivity| |].
  - destruct (file_name_check n F) as [E _]. destruct F as (H1 & _). destruct n; [contradiction|]. exact E.
  - apply (file_name_check n F).
Qed.

Lemma check_path_iff : forall p q, check_path p = Ok q -> exists n, path_names p n.
Proof.
  intros p q H. unfold check_path, dot, slash in H. destruct p as [|c p]; [exists None; constructor|].
  destruct (is_path_valid (c :: p)) eqn:V; cbn [negb orb] in H; [|discriminate].
  destruct (ustr_eqb (c :: p) [46]) eqn:E1; [discriminate|]. destruct (ustr_eqb (c :: p) [46; 46]) eqn:E2; [discriminate|].
  destruct (ustr_eqb (c :: p) [47; 46]) eqn:E3; [discriminate|]. destruct (ustr_eqb (c :: p) [47; 46; 46]) eqn:E4; [discriminate|].
  cbn [orb] in H. rewrite !fold_count in H. apply ustr_eqb_neq in E1, E2, E3, E4. apply path_valid_iff in V as [V1 V2].
  destruct (N.eq_dec c 47) as [->|NS].
  - cbn [starts_with_slash slash N.eqb Pos.eqb negb] in H. rewrite andb_false_r in H. cbn [orb] in H.
    destruct (1 <? 0 + count 47 (47 :: p)) eqn:L; [discriminate|]. apply N.ltb_ge in L. cbn [count] in L.
    assert (C : count 47 p = 0) by (change (47 =? 47) with true in L; cbv iota in L; lia). apply count_zero in C.
    destruct p as [|d p]; [exists None; constructor|]. exists (Some (d :: p)). constructor.
    split; [discriminate|]. split.
    + intros x I. destruct (V2 x (or_intror I)) as [A B]. repeat split; auto. intros ->. contradiction.
    + split; congruence.
  - assert (ST : starts_with_slash (c :: p) = false) by (cbn [starts_with_slash]; unfold slash; apply N.eqb_neq; exact NS).
    rewrite ST in H. cbn [negb] in H. rewrite andb_true_r in H. rewrite N.add_0_l in H.
    assert (C : count 47 (c :: p) = 0).
    { destruct (count 47 (c :: p) =? 1) eqn:Q1; [discriminate|]. destruct (1 <? count 47 (c :: p)) eqn:Q2; [discriminate|].
      apply N.eqb_neq in Q1. apply N.ltb_ge in Q2. lia. }
    apply count_zero in C. exists (Some (c :: p)). apply PN_file. split; [discriminate|]. split; [|split; assumption].
    intros x I. destruct (V2 x I) as [A B]. repeat split; auto. intros ->. contradiction.
Qed.
Lemma check_path_err : forall p e, check_path p = Err e -> e = InvalidInput.
Proof.
  intros p e H. unfold check_path in H. destruct p; [discriminate|].
  repeat match type of H with (if ?b then _ else _) = _ => destruct b end; congruence.
Qed.

Lemma path_no_colon : forall p n, path_names p n -> ~ In 58 p.
Proof.
  intros p n H. destruct H as [| |n (H1 & H2 & _)|n (H1 & H2 & _)].
  - intros [].
  - intros [E|[]]. discriminate.
  - intros I. destruct (H2 _ I) as [K _]. contradiction.
  - intros [E|I]; [discriminate|]. destruct (H2 _ I) as [K _]. contradiction.
Qed.
Lemma path_leaf : forall p n d, path_names p n -> leaf_name (mkLocation d (kept p)) = n.
Proof.
  intros p n d H. unfold leaf_name, slash. cbn [l_path]. destruct H as [| |n (H1 & H2 & _)|n (H1 & H2 & _)]; [reflexivity|reflexivity| |].
  - destruct n as [|c n]; [contradiction|]. cbn [kept]. assert (NS : c <> 47) by (apply (H2 c); left; reflexivity).
    replace (ustr_eqb (c :: n) [47]) with false by (symmetry; apply ustr_eqb_neq; congruence).
    cbn [starts_with_slash]. unfold slash. apply N.eqb_neq in NS. rewrite NS. reflexivity.
  - cbn [kept]. replace (ustr_eqb (47 :: n) [47]) with false by (symmetry; apply ustr_eqb_neq; congruence). reflexivity.
Qed.

Lemma path_names_fun : forall p n n', path_names p n -> path_names p n' -> n = n'.
Proof. intros p n n' H H'. rewrite <- (path_leaf p n None H). rewrite <- (path_leaf p n' None H'). reflexivity. Qed.

(** * Drives and locations *)

Lemma drive_valid_iff : forall d, drive_name_valid d = true <-> drive_name d.
Proof.
  intros d. unfold drive_name_valid, drive_name, colon, backslash, slash, dot. rewrite andb_true_iff, !negb_true_iff, existsb_false. split.
  - intros [H1 H2]. split; [destruct d; discriminate|]. intros c I. specialize (H2 c I).
    rewrite !orb_false_iff in H2. destruct H2 as [[[A B] C] D]. apply N.eqb_neq in A, B, C, D. auto.
  - intros [H1 H2]. split; [destruct d; [contradiction|reflexivity]|]. intros c I. destruct (H2 c I) as (A & B & C & D).
    apply N.eqb_neq in A, B, C, D. rewrite A, B, C, D. reflexivity.
Qed.

(** * Maps and order *)

Lemma hm_get_insert : forall A k k' (v : A) m, hm_get k (hm_insert k' v m) = if ustr_eqb k k' then Some v else hm_get k m.
Proof.
  intros A k k' v m. unfold hm_insert. cbn [hm_get]. destruct (ustr_eqb k k') eqn:E; [reflexivity|].
  apply ustr_eqb_neq in E. unfold hm_remove. induction m as [|[q w] m IH]; [reflexivity|]. cbn [filter fst hm_get].
  destruct (ustr_eqb k' q) eqn:Q; cbn [negb].
  - apply ustr_eqb_eq in Q as <-. rewrite IH. replace (ustr_eqb k k') with false by (symmetry; apply ustr_eqb_neq; exact E). reflexivity.
  - cbn [hm_get]. rewrite IH. reflexivity.
Qed.
Lemma hm_get_remove : forall A k k' (m : list (ustr * A)), hm_get k (hm_remove k' m) = if ustr_eqb k k' then None else hm_get k m.
Proof.
  intros A k k' m. unfold hm_remove. induction m as [|[q w] m IH]; cbn [filter fst hm_get]; [destruct (ustr_eqb k k'); reflexivity|].
  destruct (ustr_eqb k' q) eqn:Q; cbn [negb].
  - apply ustr_eqb_eq in Q as <-. rewrite IH. destruct (ustr_eqb k k'); reflexivity.
  - cbn [hm_get]. rewrite IH. destruct (ustr_eqb k k') eqn:E; [|reflexivity].
    apply ustr_eqb_eq in E as ->. rewrite Q. reflexivity.
Qed.
Lemma hm_get_in : forall A k (v : A) m, hm_get k m = Some v -> In (k, v) m.
Proof.
  intros A k v m. induction m as [|[q w] m IH]; cbn [hm_get]; [discriminate|]. destruct (ustr_eqb k q) eqn:E.
  - intros H. apply ustr_eqb_eq in E as ->. left. congruence.
  - intros H. right. auto.
Qed.
Lemma hm_in_get : forall A k (v : A) m, NoDup (map fst m) -> In (k, v) m -> hm_get k m = Some v.
Proof.
  intros A k v m. induction m as [|[q w] m IH]; cbn [map fst hm_get]; [intros _ []|intros ND [E|I]].
  - injection E as -> ->. rewrite ustr_eqb_refl. reflexivity.
  - inversion ND as [|x l NI ND']; subst. destruct (ustr_eqb k q) eqn:E; [|auto].
    apply ustr_eqb_eq in E as ->. exfalso. apply NI. apply (in_map fst) in I. exact I.
Qed.
Lemma hm_none : forall A k (m : list (ustr * A)), hm_get k m = None -> ~ In k (map fst m).
Proof.
  intros A k m. induction m as [|[q w] m IH]; cbn [map fst hm_get]; intros H; [intros []|].
  destruct (ustr_eqb k q) eqn:E; [discriminate|]. apply ustr_eqb_neq in E. intros [->|I]; [contradiction|]. exact (IH H I).
Qed.
Lemma hm_remove_in : forall A k k' (v : A) m, In (k, v) (hm_remove k' m) <-> In (k, v) m /\ k <> k'.
Proof.
  intros A k k' v m. unfold hm_remove. rewrite filter_In, negb_true_iff. cbn [fst]. rewrite ustr_eqb_neq. intuition congruence.
Qed.
Lemma hm_remove_nodup : forall A k (m : list (ustr * A)), NoDup (map fst m) -> NoDup (map fst (hm_remove k m)).
Proof.
  intros A k m. unfold hm_remove. induction m as [|[q w] m IH]; cbn [map fst filter]; intros ND; [constructor|].
  inversion ND as [|x l NI ND']; subst. destruct (negb (ustr_eqb k q)); cbn [map fst]; [constructor|]; auto.
  intros I. apply NI. apply in_map_iff in I as ((q', w') & <- & I). apply filter_In in I as [I _]. apply (in_map fst) in I. exact I.
Qed.
Lemma hm_insert_nodup : forall A k (v : A) m, NoDup (map fst m) -> NoDup (map fst (hm_insert k v m)).
Proof.
  intros A k v m ND. unfold hm_insert. cbn [map fst]. constructor; [|apply hm_remove_nodup; exact ND].
  intros I. apply in_map_iff in I as ((q, w) & <- & I). apply hm_remove_in in I as [_ I]. apply I. reflexivity.
Qed.
Lemma hm_insert_in : forall A k k' (v v' : A) m, In (k, v) (hm_insert k' v' m) <-> (k = k' /\ v = v') \/ (k <> k' /\ In (k, v) m).
Proof.
  intros A k k' v v' m. unfold hm_insert. cbn [In]. rewrite hm_remove_in. split.
  - intros [E|[I NE]]; [injection E; auto|auto].
  - intros [[-> ->]|[NE I]]; [left; reflexivity|right; auto].
Qed.

Lemma cmp_eq : forall a b, ustr_cmp a b = Eq <-> a = b.
Proof.
  induction a as [|x a IH]; intros [|y b]; cbn [ustr_cmp]; try (split; congruence).
  destruct (x ?= y) eqn:E.
  - apply N.compare_eq in E as ->. rewrite IH. split; congruence.
  - split; [discriminate|]. intros H. injection H as -> _. rewrite N.compare_refl in E. discriminate.
  - split; [discriminate|]. intros H. injection H as -> _. rewrite N.compare_refl in E. discriminate.
Qed.
Lemma cmp_lt : forall a b, ustr_cmp a b = Lt <-> less a b.
Proof.
  induction a as [|x a IH]; intros [|y b]; cbn [ustr_cmp less]; try solve [split; intros; (discriminate || contradiction || auto)].
  destruct (x ?= y) eqn:E.
  - apply N.compare_eq in E as ->. rewrite IH. split; [auto|]. intros [L|[_ L]]; [lia|exact L].
  - apply (proj1 (N.compare_lt_iff _ _)) in E. split; auto.
  - apply (proj1 (N.compare_gt_iff _ _)) in E. split; [discriminate|]. intros [L|[L _]]; exfalso; lia.
Qed.
Lemma cmp_gt : forall a b, ustr_cmp a b = Gt <-> less b a.
Proof.
  induction a as [|x a IH]; intros [|y b]; cbn [ustr_cmp less]; try solve [split; intros; (discriminate || contradiction || auto)].
  destruct (x ?= y) eqn:E.
  - apply N.compare_eq in E as ->. rewrite IH. split; [auto|]. intros [L|[_ L]]; [lia|exact L].
  - apply (proj1 (N.compare_lt_iff _ _)) in E. split; [discriminate|]. intros [L|[L _]]; exfalso; lia.
  - apply (proj1 (N.compare_gt_iff _ _)) in E. split; auto.
Qed.
Lemma less_trans : forall a b c, less a b -> less b c -> less a c.
Proof.
  induction a as [|x a IH]; intros [|y b] [|z c]; cbn [less]; try contradiction; auto.
  intros [L|[-> L]] [M|[-> M]]; try (left; lia). right. split; [reflexivity|]. eauto.
Qed.

Lemma increasing_cons : forall a l, increasing (a :: l) <-> increasing l /\ forall b, In b l -> less a b.
Proof.
  intros a l. revert a. induction l as [|b l IH]; intros a; [cbn; intuition; contradiction|].
  change (increasing (a :: b :: l)) with (less a b /\ increasing (b :: l)). split.
  - intros [L I]. split; [exact I|]. intros c [<-|J]; [exact L|]. apply IH in I as [_ I]. eapply less_trans; [exact L|]. auto.
  - intros [I L]. split; [apply L; left; reflexivity|exact I].
Qed.
Lemma increasing_nodup : forall l, increasing l -> NoDup l.
Proof.
  induction l as [|a l IH]; [constructor|]. rewrite increasing_cons. intros [I L]. constructor; [|auto].
  intros J. specialize (L _ J). apply cmp_lt in L. rewrite (proj2 (cmp_eq a a) eq_refl) in L. discriminate.
Qed.

Lemma bt_in : forall A k (v : A) m x, In x (map fst (bt_insert k v m)) <-> x = k \/ In x (map fst m).
Proof.
  intros A k v m x. induction m as [|[q w] m IH]; cbn [bt_insert]; [cbn; intuition|].
  destruct (ustr_cmp k q) eqn:E; cbn [map fst In].
  - apply cmp_eq in E as ->. intuition.
  - intuition.
  - rewrite IH. intuition.
Qed.
Lemma bt_increasing : forall A k (v : A) m, increasing (map fst m) -> increasing (map fst (bt_insert k v m)).
Proof.
  intros A k v m. induction m as [|[q w] m IH]; intros H; [cbn; auto|]. cbn [map fst] in H. apply increasing_cons in H as [H L].
  cbn [bt_insert]. destruct (ustr_cmp k q) eqn:E; cbn [map fst]; apply increasing_cons.
  - apply cmp_eq in E as ->. split; assumption.
  - split; [apply increasing_cons; split; assumption|]. apply cmp_lt in E. intros b [<-|I]; [exact E|]. eapply less_trans; [exact E|]. auto.
  - split; [auto|]. apply cmp_gt in E. intros b I. apply bt_in in I as [->|I]; auto.
Qed.
Lemma bt_pair : forall A k (v : A) m x y, ~ In k (map fst m) -> In (x, y) (bt_insert k v m) <-> (x = k /\ y = v) \/ In (x, y) m.
Proof.
  intros A k v m x y. induction m as [|[q w] m IH]; intros NI; cbn [bt_insert map fst In] in *.
  - split; [intros [E|[]]; left; injection E; auto|intros [[-> ->]|[]]; auto].
  - destruct (ustr_cmp k q) eqn:E.
    + apply cmp_eq in E. exfalso. apply NI. auto.
    + cbn [In]. split; [intros [H|H]; [left; injection H; auto|auto]|intros [[-> ->]|H]; auto].
    + cbn [In]. rewrite IH by auto. tauto.
Qed.

(** A sorted listing of a map. *)
Lemma listing_keys : forall A B (f : A -> B) m x,
  In x (map fst (fold_right (fun e m => bt_insert (fst e) (f (snd e)) m) [] m)) <-> In x (map fst m).
Proof.
  intros A B f m x. induction m as [|[q w] m IH]; cbn [fold_right map fst snd In]; [tauto|]. rewrite bt_in, IH. intuition.
Qed.
Lemma listing_increasing : forall A B (f : A -> B) m,
  increasing (map fst (fold_right (fun e m => bt_insert (fst e) (f (snd e)) m) [] m)).
Proof. intros A B f m. induction m as [|[q w] m IH]; cbn [fold_right map fst snd]; [exact I|]. apply bt_increasing. exact IH. Qed.
Lemma listing_in : forall A B (f : A -> B) m x y, NoDup (map fst m) ->
  In (x, y) (fold_right (fun e m => bt_insert (fst e) (f (snd e)) m) [] m) <-> exists v, hm_get x m = Some v /\ y = f v.
Proof.
  intros A B f m x y. induction m as [|[q w] m IH]; intros ND; cbn [fold_right fst snd hm_get].
  - split; [intros []|intros (v & E & _); discriminate].
  - cbn [map fst] in ND. inversion ND as [|a l NI ND']; subst. rewrite bt_pair by (rewrite listing_keys; exact NI). rewrite (IH ND').
    destruct (ustr_eqb x q) eqn:E.
    + apply ustr_eqb_eq in E as ->. split.
      * intros [[_ ->]|(v & H & _)]; [eauto|]. apply hm_get_in in H. apply (in_map fst) in H. contradiction.
      * intros (v & H & ->). left. split; congruence.
    + apply ustr_eqb_neq in E. split; [intros [[K _]|H]; [contradiction|exact H]|auto].
Qed.

Lemma sort_insert_in : forall k l x, In x (sort_insert k l) <-> x = k \/ In x l.
Proof.
  intros k l x. induction l as [|q l IH]; cbn [sort_insert In]; [intuition|].
  destruct (ustr_cmp k q); cbn [In]; try rewrite IH; intuition.
Qed.
Lemma sort_in : forall l x, In x (ustr_sort l) <-> In x l.
Proof. induction l as [|k l IH]; intros x; cbn [ustr_sort In]; [tauto|]. rewrite sort_insert_in, IH. intuition. Qed.
Lemma sort_insert_increasing : forall k l, ~ In k l -> increasing l -> increasing (sort_insert k l).
Proof.
  intros k l. induction l as [|q l IH]; intros NI H; cbn [sort_insert]; [cbn; auto|].
  destruct (ustr_cmp k q) eqn:E.
  - apply cmp_eq in E. exfalso. apply NI. left. auto.
  - apply cmp_lt in E. apply increasing_cons. split; [exact H|]. apply increasing_cons in H as [_ H].
    intros b [<-|I]; [exact E|]. eapply less_trans; [exact E|]. auto.
  - apply cmp_gt in E. apply increasing_cons in H as [H L]. apply increasing_cons. split; [apply IH; [intros I; apply NI; right; exact I|exact H]|].
    intros b I. apply sort_insert_in in I as [->|I]; auto.
Qed.
Lemma sort_increasing : forall l, NoDup l -> increasing (ustr_sort l).
Proof.
  induction l as [|k l IH]; intros ND; cbn [ustr_sort]; [exact I|]. inversion ND; subst. apply sort_insert_increasing; auto.
  rewrite sort_in. assumption.
Qed.

Lemma hs_remove_in : forall k s x, In x (hs_remove k s) <-> In x s /\ x <> k.
Proof. intros k s x. unfold hs_remove. rewrite filter_In, negb_true_iff, ustr_eqb_neq. intuition congruence. Qed.
Lemma hs_insert_in : forall k s x, In x (hs_insert k s) <-> x = k \/ In x s.
Proof. intros k s x. unfold hs_insert. cbn [In]. rewrite hs_remove_in. destruct (ustr_dec x k); intuition congruence. Qed.
Lemma hs_remove_nodup : forall k s, NoDup s -> NoDup (hs_remove k s).
Proof. intros. apply NoDup_filter. assumption. Qed.
Lemma hs_insert_nodup : forall k s, NoDup s -> NoDup (hs_insert k s).
Proof. intros k s H. unfold hs_insert. constructor; [|apply hs_remove_nodup; exact H]. rewrite hs_remove_in. intuition. Qed.
Lemma removes_in : forall l s x, In x (fold_left (fun s r => hs_remove r s) l s) <-> In x s /\ ~ In x l.
Proof.
  induction l as [|r l IH]; intros s x; cbn [fold_left In]; [tauto|]. rewrite IH, hs_remove_in. intuition.
Qed.
Lemma inserts_in : forall l s x, In x (fold_left (fun s r => hs_insert r s) l s) <-> In x s \/ In x l.
Proof.
  induction l as [|r l IH]; intros s x; cbn [fold_left In]; [tauto|]. rewrite IH, hs_insert_in. intuition.
Qed.
Lemma removes_nodup : forall l s, NoDup s -> NoDup (fold_left (fun s r => hs_remove r s) l s).
Proof. induction l as [|r l IH]; intros s H; cbn [fold_left]; [exact H|]. apply IH, hs_remove_nodup, H. Qed.
Lemma inserts_nodup : forall l s, NoDup s -> NoDup (fold_left (fun s r => hs_insert r s) l s).
Proof. induction l as [|r l IH]; intros s H; cbn [fold_left]; [exact H|]. apply IH, hs_insert_nodup, H. Qed.

(** * Invariant *)

Record st_ok (st : storage) : Prop := mkStOk {
  so_current : hm_get (st_current st) (st_drives st) <> None;
  so_drives : NoDup (map fst (st_drives st));
  so_each : forall k uri d, In (k, (uri, d)) (st_drives st) -> drive_ok d;
  so_factories : forall s f t d, In (s, f) (st_factories st) -> f t = Ok d -> drive_ok d
}.

Lemma start_ok : st_ok storage_default.
Proof.
  constructor; cbn [storage_default st_current st_drives st_factories].
  - discriminate.
  - cbn. constructor; [intros []|constructor].
  - intros k uri d [E|[]]. injection E as <- <- <-. split; [constructor|intros n c rs []].
  - intros s f t d [E|[]] H. injection E as <- <-. unfold memory_factory in H. destruct t; [|discriminate].
    assert (d = DMem []) by congruence. subst d. split; [constructor|intros n c rs []].
Qed.

Section Case.
Variable uc : N -> list N.

Lemma drive_key_ok : forall d, drive_name d -> drive_key uc d = Ok (flat_map uc d).
Proof. intros d H. unfold drive_key. apply drive_valid_iff in H. rewrite H. reflexivity. Qed.
Lemma drive_key_inv : forall d k, drive_key uc d = Ok k -> drive_name d /\ k = flat_map uc d.
Proof.
  intros d k H. unfold drive_key in H. destruct (drive_name_valid d) eqn:E; [|discriminate].
  apply drive_valid_iff in E. cbn [negb] in H. split; [exact E|congruence].
Qed.
Lemma drive_key_err : forall d e, drive_key uc d = Err e -> e = InvalidInput /\ ~ drive_name d.
Proof.
  intros d e H. unfold drive_key in H. destruct (drive_name_valid d) eqn:E; cbn [negb] in H; [discriminate|].
  split; [congruence|]. intros K. apply drive_valid_iff in K. congruence.
Qed.

(** The path that the text of a location has. *)
Definition path_of (raw : ustr) : ustr := last (split_on 58 raw) [].

Lemma location_ok : forall raw d n, location_names raw d n ->
  location_new uc raw = Ok (mkLocation (option_map (flat_map uc) d) (kept (path_of raw))) /\ path_names (path_of raw) n.
Proof.
  intros raw d n H. unfold location_new, path_of. change colon with 58. destruct H as [p n P|d p n D P].
  - rewrite (split_none p) by (apply (path_no_colon p n P)). cbn [last]. rewrite (check_path_ok p n P). auto.
  - rewrite split_sep by (intros I; destruct D as [_ D]; destruct (D _ I) as [K _]; contradiction).
    rewrite (split_none p) by (apply (path_no_colon p n P)). cbn [last]. rewrite (drive_key_ok d D), (check_path_ok p n P). auto.
Qed.

Lemma location_inv : forall raw l, location_new uc raw = Ok l -> exists d n, location_names raw d n.
Proof.
  intros raw l H. unfold location_new in H. change colon with 58 in H.
  destruct (split_cases raw) as [C|(a & b & -> & C)].
  - rewrite (split_none raw C) in H. destruct (check_path raw) as [q|] eqn:E; [|discriminate].
    destruct (check_path_iff _ _ E) as (n & P). exists None, n. constructor. exact P.
  - rewrite (split_sep a b C) in H. destruct (split_cases b) as [C'|(a' & b' & -> & C')].
    + rewrite (split_none b C') in H. destruct (drive_key uc a) as [k|] eqn:K; [|discriminate].
      destruct (check_path b) as [q|] eqn:E; [|discriminate]. destruct (check_path_iff _ _ E) as (n & P).
      apply drive_key_inv in K as [K _]. exists (Some a), n. constructor; assumption.
    + rewrite (split_sep a' b' C') in H. pose proof (split_nonempty b') as NE.
      destruct (split_on 58 b'); [contradiction|discriminate].
Qed.

Lemma location_err : forall raw e, location_new uc raw = Err e -> e = InvalidInput.
Proof.
  intros raw e H. unfold location_new in H. destruct (split_on colon raw) as [|a [|b [|c r]]]; try congruence.
  - destruct (check_path a) as [q|e'] eqn:E; [discriminate|]. apply check_path_err in E. congruence.
  - destruct (drive_key uc a) as [k|e'] eqn:K; [|apply drive_key_err in K as [K _]; congruence].
    destruct (check_path b) as [q|e'] eqn:E; [discriminate|]. apply check_path_err in E. congruence.
Qed.

Lemma location_names_fun : forall raw d n d' n',
  location_names raw d n -> location_names raw d' n' -> d = d' /\ n = n'.
Proof.
  intros raw d n d' n' H H'. destruct (location_ok raw d n H) as [_ P]. destruct (location_ok raw d' n' H') as [_ P'].
  split; [|exact (path_names_fun _ _ _ P P')].
  destruct H as [p n P1|d p n D P1]; inversion H' as [p' n1 P2 E1|d1 p' n1 D' P2 E1]; subst.
  - reflexivity.
  - exfalso. apply (path_no_colon _ _ P1). apply in_or_app. right. left. reflexivity.
  - exfalso. apply (path_no_colon _ _ P2). apply in_or_app. right. left. reflexivity.
  - f_equal. assert (C1 : ~ In 58 d) by (intros I; destruct D as [_ D]; destruct (D _ I); contradiction).
    assert (C2 : ~ In 58 d1) by (intros I; destruct D' as [_ D']; destruct (D' _ I); contradiction).
    assert (E2 : split_on 58 (d1 ++ 58 :: p') = split_on 58 (d ++ 58 :: p)) by congruence.
    rewrite (split_sep d1 p' C2), (split_sep d p C1) in E2. congruence.
Qed.

Lemma in_upper : forall d c', In c' (flat_map uc d) -> exists c, In c d /\ In c' (uc c).
Proof. intros d c' I. apply in_flat_map in I. exact I. Qed.

Lemma upper_drive : upper_ok uc -> forall d, drive_name d -> drive_name (flat_map uc d) /\ flat_map uc (flat_map uc d) = flat_map uc d.
Proof.
  intros U d [H1 H2]. split; [split|].
  - destruct d as [|c d]; [contradiction|]. cbn [flat_map]. pose proof (uo_some _ U c). destruct (uc c); [contradiction|discriminate].
  - intros c' I. apply in_flat_map in I as (c & I & I').
    assert (G : c' < 128 -> (c < 128 /\ c' = upper1 c) \/ 65 <= c' <= 90).
    { intros L. destruct (uo_special _ U c c' I' L) as [A|A]; [left|right; exact A].
      split; [exact A|]. rewrite (uo_ascii _ U c A) in I'. destruct I' as [<-|[]]. reflexivity. }
    destruct (H2 c I) as (A1 & A2 & A3 & A4).
    assert (K : forall q, q = 58 \/ q = 92 \/ q = 47 \/ q = 46 -> c' = q -> False).
    { intros q Q E. assert (L : c' < 128) by lia. destruct (G L) as [[L1 E1]|E1]; [|lia].
      unfold upper1 in E1. destruct ((97 <=? c) && (c <=? 122)) eqn:T.
      - apply andb_true_iff in T as [T1 T2]. apply N.leb_le in T1, T2. lia.
      - lia. }
    repeat split; intros E; eapply K; try exact E; lia.
  - clear H1 H2. induction d as [|c d IH]; [reflexivity|]. cbn [flat_map]. rewrite flat_map_app, IH. f_equal.
    assert (G : forall l, (forall c', In c' l -> uc c' = [c']) -> flat_map uc l = l).
    { induction l as [|x l IHl]; intros G; [reflexivity|]. cbn [flat_map]. rewrite (G x (or_introl eq_refl)), IHl; [reflexivity|].
      intros c' I. apply G. right. exact I. }
    apply G. intros c' I. exact (uo_again _ U c c' I).
Qed.

Lemma kept_names : forall p n, path_names p n -> path_names (kept p) n.
Proof. intros p n H. destruct H as [| |n F|n F]; cbn [kept]; try constructor; auto. destruct n; [destruct F; contradiction|]. constructor. exact F. Qed.
Lemma kept_kept : forall p, kept (kept p) = kept p.
Proof. intros [|c p]; reflexivity. Qed.

Lemma text_round_trip : upper_ok uc -> forall raw l, location_new uc raw = Ok l -> location_new uc (location_text l) = Ok l.
Proof.
  intros U raw l H. destruct (location_inv _ _ H) as (d & n & L). destruct (location_ok _ _ _ L) as [E P].
  rewrite E in H. assert (EL : l = mkLocation (option_map (flat_map uc) d) (kept (path_of raw))) by congruence. subst l. clear H.
  unfold location_text. cbn [l_drive l_path]. pose proof (kept_names _ _ P) as P'.
  destruct d as [d|]; cbn [option_map].
  - assert (D : drive_name d) by (inversion L; assumption). destruct (upper_drive U d D) as [D1 D2].
    destruct (location_ok _ _ _ (LN_drive (flat_map uc d) _ _ D1 P')) as [E' _].
    change ([colon] ++ kept (path_of raw)) with (58 :: kept (path_of raw)). rewrite E'. unfold option_map. rewrite D2.
    do 2 f_equal. unfold path_of at 1. rewrite split_sep, split_none.
    + cbn [last]. apply kept_kept.
    + apply (path_no_colon _ _ P').
    + intros I. destruct D1 as [_ D1]. destruct (D1 _ I). contradiction.
  - destruct (location_ok _ _ _ (LN_path _ _ P')) as [E' _]. rewrite E'. unfold option_map. do 2 f_equal.
    unfold path_of at 1. rewrite split_none by (apply (path_no_colon _ _ P')). cbn [last]. apply kept_kept.
Qed.


(** * Operations on files *)

Lemma named_location : forall st raw k n, names_file uc st raw k n ->
  exists l, location_new uc raw = Ok l /\ leaf_name l = Some n /\ drive_of st l = k.
Proof.
  intros st raw k n (d & L & ->). destruct (location_ok raw d _ L) as [E P]. eexists. split; [exact E|].
  split; [apply path_leaf; exact P|]. unfold drive_of. cbn [l_drive]. destruct d; reflexivity.
Qed.
Lemma root_location : forall st raw k, names_root uc st raw k ->
  exists l, location_new uc raw = Ok l /\ leaf_name l = None /\ drive_of st l = k.
Proof.
  intros st raw k (d & L & ->). destruct (location_ok raw d _ L) as [E P]. eexists. split; [exact E|].
  split; [apply path_leaf; exact P|]. unfold drive_of. cbn [l_drive]. destruct d; reflexivity.
Qed.
Lemma location_cases : forall st raw l, location_new uc raw = Ok l ->
  (exists n, leaf_name l = Some n /\ names_file uc st raw (drive_of st l) n) \/
  (leaf_name l = None /\ names_root uc st raw (drive_of st l)).
Proof.
  intros st raw l H. destruct (location_inv _ _ H) as (d & n & L). destruct (location_ok raw d n L) as [E P].
  rewrite E in H. assert (l = mkLocation (option_map (flat_map uc) d) (kept (path_of raw))) by congruence. subst l.
  rewrite (path_leaf _ _ _ P). unfold drive_of. cbn [l_drive].
  destruct n as [n|]; [left; exists n|right]; (split; [reflexivity|]); exists d; (split; [exact L|]); destruct d; reflexivity.
Qed.

Lemma get_drive_is : forall st l, st_ok st ->
  get_drive st l = Some (match hm_get (drive_of st l) (st_drives st) with Some m => Ok m | None => Err NotFound end).
Proof.
  intros st l W. unfold get_drive, drive_of. destruct (l_drive l); [destruct (hm_get _ _); reflexivity|].
  pose proof (so_current _ W). destruct (hm_get _ _); [reflexivity|contradiction].
Qed.

Definition drive_at (st : storage) (k : ustr) : option drive := option_map snd (hm_get k (st_drives st)).

Lemma on_file_is : forall A st l n (f : ustr -> drive -> res io_error A), st_ok st -> leaf_name l = Some n ->
  on_file st l f = Some (match drive_at st (drive_of st l) with Some d => f n d | None => Err NotFound end).
Proof.
  intros A st l n f W L. unfold on_file, drive_at. rewrite L, (get_drive_is st l W). destruct (hm_get _ _) as [[uri d]|]; reflexivity.
Qed.
Lemma on_root_is : forall A st l (f : ustr -> drive -> res io_error A), leaf_name l = None -> on_file st l f = Some (Err NotFound).
Proof. intros A st l f L. unfold on_file. rewrite L. reflexivity. Qed.

(** The storage with another drive in a mounted place. *)
Definition set_drive (st : storage) (k : ustr) (d : drive) : storage :=
  match hm_get k (st_drives st) with
  | Some (uri, _) => with_drives (hm_insert k (uri, d) (st_drives st)) st
  | None => st
  end.
Lemma set_drive_at : forall st k d k', drive_at st k <> None ->
  drive_at (set_drive st k d) k' = if ustr_eqb k' k then Some d else drive_at st k'.
Proof.
  intros st k d k' H. unfold drive_at, set_drive in *. destruct (hm_get k (st_drives st)) as [[uri d0]|]; [|contradiction].
  cbn [with_drives st_drives]. rewrite hm_get_insert. destruct (ustr_eqb k' k); reflexivity.
Qed.
Lemma set_drive_current : forall st k d, st_current (set_drive st k d) = st_current st.
Proof. intros st k d. unfold set_drive. destruct (hm_get k (st_drives st)) as [[uri d0]|]; reflexivity. Qed.

Lemma changing_is : forall st l n f, st_ok st -> leaf_name l = Some n ->
  changing st l f = Some (match drive_at st (drive_of st l) with
    | Some d => match f n d with Ok d' => Ok (set_drive st (drive_of st l) d') | Err e => Err e end
    | None => Err NotFound end).
Proof.
  intros st l n f W L. unfold changing. rewrite (on_file_is _ st l n f W L). destruct (drive_at st (drive_of st l)) as [d|]; [|reflexivity].
  destruct (f n d); reflexivity.
Qed.

Lemma get_file : forall st raw k n, st_ok st -> names_file uc st raw k n ->
  get uc raw st = Some (match drive_at st k with Some d => drive_get n d | None => Err NotFound end).
Proof.
  intros st raw k n W H. destruct (named_location _ _ _ _ H) as (l & E & L & <-). unfold get, get_location.
  rewrite E. apply on_file_is; assumption.
Qed.
Lemma get_acls_file : forall st raw k n, st_ok st -> names_file uc st raw k n ->
  get_acls uc raw st = Some (match drive_at st k with Some d => drive_get_acls n d | None => Err NotFound end).
Proof.
  intros st raw k n W H. destruct (named_location _ _ _ _ H) as (l & E & L & <-). unfold get_acls. rewrite E. apply on_file_is; assumption.
Qed.
Lemma put_file : forall st raw k n c, st_ok st -> names_file uc st raw k n ->
  put uc raw c st = Some (match drive_at st k with
    | Some d => match drive_put n c d with Ok d' => Ok (set_drive st k d') | Err e => Err e end
    | None => Err NotFound end).
Proof.
  intros st raw k n c W H. destruct (named_location _ _ _ _ H) as (l & E & L & <-). unfold put, put_location. rewrite E.
  rewrite (changing_is st l n _ W L). reflexivity.
Qed.
Lemma delete_file : forall st raw k n, st_ok st -> names_file uc st raw k n ->
  delete uc raw st = Some (match drive_at st k with
    | Some d => match drive_delete n d with Ok d' => Ok (set_drive st k d') | Err e => Err e end
    | None => Err NotFound end).
Proof.
  intros st raw k n W H. destruct (named_location _ _ _ _ H) as (l & E & L & <-). unfold delete. rewrite E.
  rewrite (changing_is st l n _ W L). reflexivity.
Qed.
Lemma update_acls_file : forall st raw k n a r, st_ok st -> names_file uc st raw k n ->
  update_acls uc raw a r st = Some (match drive_at st k with
    | Some d => match drive_update_acls n a r d with Ok d' => Ok (set_drive st k d') | Err e => Err e end
    | None => Err NotFound end).
Proof.
  intros st raw k n a r W H. destruct (named_location _ _ _ _ H) as (l & E & L & <-). unfold update_acls. rewrite E.
  rewrite (changing_is st l n _ W L). reflexivity.
Qed.

Lemma set_leaf_names : forall d p n name, path_names p n -> n = None ->
  leaf_name (set_leaf_name name (mkLocation d (kept p))) = Some name \/ name = [].
Proof.
  intros d p n name P E. destruct P as [| |q F|q F]; try discriminate E; cbn [kept set_leaf_name starts_with_slash];
    (destruct name as [|c name]; [right; reflexivity|left]; reflexivity).
Qed.

(** The file that COPY writes: the destination, or the name of the source in the destination. *)
Definition names_target st (src dest k n : ustr) : Prop :=
  names_file uc st dest k n \/ (names_root uc st dest k /\ exists k', names_file uc st src k' n).

Lemma copy_file : forall st src k n dest k' n', st_ok st -> names_file uc st src k n -> names_target st src dest k' n' ->
  copy uc src dest st = Some (match drive_at st k with
    | Some d => match drive_get n d with
      | Ok c => match drive_at st k' with
        | Some d' => match drive_put n' c d' with Ok d'' => Ok (set_drive st k' d'') | Err e => Err e end
        | None => Err NotFound end
      | Err e => Err e end
    | None => Err NotFound end).
Proof.
  intros st src k n dest k' n' W H T. destruct (named_location _ _ _ _ H) as (l & E & L & <-). unfold copy. rewrite E, L.
  unfold get_location. rewrite (on_file_is _ st l n drive_get W L).
  destruct T as [T|[T (k2 & T2)]].
  - destruct (named_location _ _ _ _ T) as (l' & E' & L' & <-). rewrite E', L'.
    destruct (drive_at st (drive_of st l)) as [d|]; [|reflexivity]. destruct (drive_get n d) as [c|e]; [|reflexivity].
    unfold put_location. rewrite (changing_is st l' n' _ W L'). reflexivity.
  - assert (n' = n).
    { destruct T2 as (d2 & A & _). destruct H as (d1 & B & _). destruct (location_names_fun _ _ _ _ _ A B) as [_ Q]. congruence. }
    subst n'. assert (NE : n <> []).
    { destruct H as (d1 & B & _). inversion B as [p q P|dd p q D P]; subst; inversion P as [| |m F|m F]; subst; destruct F; assumption. }
    destruct T as (dd & LN & KK). destruct (location_ok _ _ _ LN) as [E' P']. rewrite E'. rewrite (path_leaf _ _ _ P').
    assert (L' : leaf_name (set_leaf_name n (mkLocation (option_map (flat_map uc) dd) (kept (path_of dest)))) = Some n).
    { destruct (set_leaf_names (option_map (flat_map uc) dd) _ _ n P' eq_refl) as [Q|Q]; [exact Q|contradiction]. }
    assert (K' : drive_of st (set_leaf_name n (mkLocation (option_map (flat_map uc) dd) (kept (path_of dest)))) = k').
    { rewrite KK. unfold drive_of, set_leaf_name. cbn [l_drive l_path]. destruct (starts_with_slash _); cbn [l_drive]; destruct dd; reflexivity. }
    destruct (drive_at st (drive_of st l)) as [d|]; [|reflexivity]. destruct (drive_get n d) as [c|e]; [|reflexivity].
    unfold put_location. rewrite (changing_is st _ n _ W L'), K'. reflexivity.
Qed.

(** * Reachable states *)

Variable lc : N -> list N.

Lemma drive_put_ok : forall n c d d', file_name n -> drive_ok d -> drive_put n c d = Ok d' -> drive_ok d'.
Proof.
  intros n c [ps|ds] d' F O H; cbn [drive_put] in H; [|discriminate]. destruct O as [O1 O2].
  assert (G : forall rs, NoDup rs -> drive_ok (DMem (hm_insert n (c, rs) ps))).
  { intros rs ND. split; [apply hm_insert_nodup; exact O1|]. intros m c' rs' I. apply hm_insert_in in I as [[-> E]|[_ I]]; [|eauto].
    injection E as -> ->. auto. }
  destruct (hm_get n ps) as [[c0 rs]|] eqn:E; injection H as <-; apply G; [|constructor].
  apply hm_get_in in E. apply (O2 _ _ _ E).
Qed.
Lemma drive_delete_ok : forall n d d', drive_ok d -> drive_delete n d = Ok d' -> drive_ok d'.
Proof.
  intros n [ps|ds] d' O H; cbn [drive_delete] in H; [|discriminate]. destruct O as [O1 O2].
  destruct (hm_get n ps); [|discriminate]. injection H as <-. split; [apply hm_remove_nodup; exact O1|].
  intros m c rs I. apply hm_remove_in in I as [I _]. eauto.
Qed.
Lemma drive_acls_ok : forall n a r d d', drive_ok d -> drive_update_acls n a r d = Ok d' -> drive_ok d'.
Proof.
  intros n a r [ps|ds] d' O H; cbn [drive_update_acls] in H; [|discriminate]. destruct O as [O1 O2].
  destruct (hm_get n ps) as [[c rs]|] eqn:E; [|discriminate]. apply hm_get_in in E. destruct (O2 _ _ _ E) as [F ND].
  injection H as <-. split; [apply hm_insert_nodup; exact O1|]. intros m c' rs' I. apply hm_insert_in in I as [[-> Q]|[_ I]]; [|eauto].
  injection Q as -> ->. split; [exact F|]. apply inserts_nodup, removes_nodup. exact ND.
Qed.

Lemma set_drive_ok : forall st k d, st_ok st -> drive_ok d -> st_ok (set_drive st k d).
Proof.
  intros st k d [A B C D] O. unfold set_drive. destruct (hm_get k (st_drives st)) as [[uri d0]|] eqn:E; [|constructor; auto].
  constructor; cbn [with_drives st_current st_drives st_factories]; [| | |exact D].
  - rewrite hm_get_insert. destruct (ustr_eqb _ _); [discriminate|exact A].
  - apply hm_insert_nodup. exact B.
  - intros k' u' d' I. apply hm_insert_in in I as [[_ Q]|[_ I]]; [injection Q as -> ->; exact O|eauto].
Qed.

Lemma drive_at_ok : forall st k d, st_ok st -> drive_at st k = Some d -> drive_ok d.
Proof.
  intros st k d W H. unfold drive_at in H. destruct (hm_get k (st_drives st)) as [[uri d0]|] eqn:E; [|discriminate].
  injection H as ->. apply hm_get_in in E. exact (so_each _ W _ _ _ E).
Qed.

Lemma names_file_name : forall st raw k n, names_file uc st raw k n -> file_name n.
Proof.
  intros st raw k n (d & L & _). inversion L as [p q P|dd p q D P]; subst; inversion P as [| |m F|m F]; subst; exact F.
Qed.

Ltac some_ok H := apply (f_equal (fun o => match o with Some r => r | None => Err Other end)) in H; cbv beta iota in H.

Lemma changing_ok : forall st l f st', st_ok st ->
  (forall n d d', leaf_name l = Some n -> drive_ok d -> f n d = Ok d' -> drive_ok d') ->
  changing st l f = Some (Ok st') -> st_ok st'.
Proof.
  intros st l f st' W F H. destruct (leaf_name l) as [n|] eqn:L.
  - rewrite (changing_is st l n f W L) in H. some_ok H. destruct (drive_at st (drive_of st l)) as [d|] eqn:D; [|discriminate].
    destruct (f n d) as [d'|e] eqn:E; [|discriminate]. injection H as <-. apply set_drive_ok; [exact W|].
    eapply F; [reflexivity| |exact E]. exact (drive_at_ok _ _ _ W D).
  - unfold changing in H. rewrite on_root_is in H by exact L. discriminate.
Qed.

Lemma leaf_file_name : forall raw l n, location_new uc raw = Ok l -> leaf_name l = Some n -> file_name n.
Proof.
  intros raw l n E L. destruct (location_cases storage_default raw l E) as [(m & L' & H)|[L' _]]; [|congruence].
  assert (m = n) by congruence. subst m. exact (names_file_name _ _ _ _ H).
Qed.

Lemma perform_ok : forall o st st', st_ok st -> op_ok o -> perform uc lc o st = Some (Ok st') -> st_ok st'.
Proof.
  intros o st st' W O H. destruct o as [name uri|name|raw|raw c|raw|src dest|raw a r|scheme f]; cbn [perform] in H.
  - some_ok H. unfold mount in H. destruct (split_uri uri) as [[scheme path]|e]; [|discriminate].
    destruct (hm_get (flat_map lc scheme) (st_factories st)) as [f|] eqn:E; [|discriminate].
    destruct (f path) as [d|e] eqn:F; [|discriminate]. unfold attach in H.
    destruct (drive_key uc name) as [k|e]; [|discriminate]. destruct (hm_get k (st_drives st)) eqn:G; [discriminate|].
    injection H as <-. apply hm_get_in in E. pose proof (so_factories _ W _ _ _ _ E F) as DO. destruct W as [A B C D].
    constructor; cbn [with_drives st_current st_drives st_factories]; [| | |exact D].
    + rewrite hm_get_insert. destruct (ustr_eqb _ _); [discriminate|exact A].
    + apply hm_insert_nodup. exact B.
    + intros k' u' d' I. apply hm_insert_in in I as [[_ Q]|[_ I]]; [injection Q as -> ->; exact DO|eauto].
  - unfold unmount in H. destruct (drive_key uc name) as [k|e]; [|discriminate].
    destruct (hm_get k (st_drives st)) eqn:G; [|discriminate]. destruct (ustr_eqb (st_current st) k) eqn:E; [discriminate|].
    destruct (Nat.ltb 1 _); [|discriminate]. some_ok H. injection H as <-. destruct W as [A B C D].
    constructor; cbn [with_drives st_current st_drives st_factories]; [| | |exact D].
    + rewrite hm_get_remove, E. exact A.
    + apply hm_remove_nodup. exact B.
    + intros k' u' d' I. apply hm_remove_in in I as [I _]. eauto.
  - some_ok H. unfold cd in H. destruct (location_new uc raw) as [l|e]; [|discriminate].
    destruct (leaf_name l); [discriminate|]. destruct (l_drive l) as [k|]; [|injection H as <-; exact W].
    destruct (hm_get k (st_drives st)) eqn:G; [|discriminate]. injection H as <-. destruct W as [A B C D].
    constructor; cbn [st_current st_drives st_factories]; auto. congruence.
  - unfold put, put_location in H. destruct (location_new uc raw) as [l|e] eqn:E; [|discriminate].
    eapply changing_ok; [exact W| |exact H]. cbv beta. intros n d d' L DO Q. eapply drive_put_ok; [|exact DO|exact Q].
    exact (leaf_file_name _ _ _ E L).
  - unfold delete in H. destruct (location_new uc raw) as [l|e] eqn:E; [|discriminate].
    eapply changing_ok; [exact W| |exact H]. intros n d d' L DO Q. eapply drive_delete_ok; [exact DO|exact Q].
  - unfold copy in H. destruct (location_new uc src) as [l|e] eqn:E; [|discriminate].
    destruct (leaf_name l) as [n|] eqn:L; [|discriminate]. destruct (location_new uc dest) as [l'|e] eqn:E'; [|discriminate].
    destruct (get_location st l) as [[c|e]|]; try discriminate. unfold put_location in H.
    eapply changing_ok; [exact W| |exact H]. cbv beta. intros m d d' L' DO Q. eapply drive_put_ok; [|exact DO|exact Q].
    destruct (leaf_name l') as [n'|] eqn:L2.
    + assert (m = n') by congruence. subst m. exact (leaf_file_name _ _ _ E' L2).
    + destruct (location_cases st dest l' E') as [(q & Q1 & _)|[_ (dd & LN & _)]]; [congruence|].
      destruct (location_ok _ _ _ LN) as [E2 P2]. rewrite E2 in E'.
      assert (l' = mkLocation (option_map (flat_map uc) dd) (kept (path_of dest))) by congruence. subst l'.
      pose proof (leaf_file_name _ _ _ E L) as F.
      destruct (set_leaf_names (option_map (flat_map uc) dd) _ _ n P2 eq_refl) as [K|K]; [|destruct F; contradiction].
      assert (m = n) by congruence. subst m. exact F.
  - unfold update_acls in H. destruct (location_new uc raw) as [l|e] eqn:E; [|discriminate].
    eapply changing_ok; [exact W| |exact H]. cbv beta. intros n d d' L DO Q. eapply drive_acls_ok; [exact DO|exact Q].
  - some_ok H. injection H as <-. destruct W as [A B C D]. constructor; cbn [register_scheme st_current st_drives st_factories]; auto.
    intros s g t d I Q. apply hm_insert_in in I as [[_ ->]|[_ I]]; [exact (O _ _ Q)|eauto].
Qed.

Lemma reachable_ok : forall st, reachable uc lc st -> st_ok st.
Proof. intros st R. induction R as [|st o st' R IH O P]; [exact start_ok|exact (perform_ok o st st' IH O P)]. Qed.

Lemma perform_total : forall o st, st_ok st -> perform uc lc o st <> None.
Proof.
  assert (CH : forall st l f, st_ok st -> changing st l f <> None).
  { intros st l f W. destruct (leaf_name l) as [n|] eqn:L; [rewrite (changing_is st l n f W L)|unfold changing; rewrite on_root_is by exact L]; discriminate. }
  intros o st W. destruct o as [name uri|name|raw|raw c|raw|src dest|raw a r|scheme f]; cbn [perform]; try discriminate.
  - unfold unmount. destruct (drive_key uc name) as [k|e]; [|discriminate]. destruct (hm_get k (st_drives st)) eqn:G; [|discriminate].
    destruct (ustr_eqb (st_current st) k) eqn:E; [discriminate|]. destruct (Nat.ltb 1 _) eqn:L; [discriminate|]. exfalso.
    apply Nat.ltb_ge in L. pose proof (so_current _ W) as A. destruct (hm_get (st_current st) (st_drives st)) eqn:G'; [|contradiction].
    apply hm_get_in in G, G'. destruct (st_drives st) as [|x [|y r]]; [destruct G| |cbn in L; lia].
    destruct G as [G|[]], G' as [G'|[]]. apply ustr_eqb_neq in E. congruence.
  - unfold put, put_location. destruct (location_new uc raw); [apply CH; exact W|discriminate].
  - unfold delete. destruct (location_new uc raw); [apply CH; exact W|discriminate].
  - unfold copy. destruct (location_new uc src) as [l|e]; [|discriminate]. destruct (leaf_name l) as [n|] eqn:L; [|discriminate].
    destruct (location_new uc dest); [|discriminate]. unfold get_location. rewrite (on_file_is _ st l n _ W L).
    destruct (drive_at _ _) as [d|]; [destruct (drive_get n d)|]; try discriminate. apply CH; exact W.
  - unfold update_acls. destruct (location_new uc raw); [apply CH; exact W|discriminate].
Qed.

End Case.
