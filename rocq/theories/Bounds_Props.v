(** C29: array bounds. *)
From Verif Require Import Base Bytecode_Model Mem_Model Mem_Spec Mem_Proofs Bounds_Model.

(** Sizes of the dimensions of arrays that exist: DIM only accepts positive sizes that fit an
    integer. *)
Definition array_shape (dims : list N) : Prop := Forall (fun d => (0 < d < 2 ^ 31)%N) dims.

Lemma as_i32_small d : (d < 2 ^ 31)%N -> as_i32 d = Z.of_N d.
Proof.
  intros H. unfold as_i32. change (2 ^ 31)%N with 2147483648%N in *. change (2 ^ 32)%N with 4294967296%N.
  rewrite N.mod_small by lia. destruct (N.ltb_spec d 2147483648); lia.
Qed.

Lemma bounds_at dims k d : array_shape dims -> nth_error dims k = Some d ->
  lbound dims (Some (Z.of_nat (S k))) = Some (Ok 0%Z) /\
  ubound dims (Some (Z.of_nat (S k))) = Some (Ok (Z.of_N d - 1)%Z).
Proof.
  intros S E. assert (L : k < length dims) by (apply nth_error_Some; congruence).
  unfold lbound, ubound, parse_bound_args.
  destruct (Z.ltb_spec (Z.of_nat (Datatypes.S k)) 0); [lia|]. rewrite Nat2Z.id.
  destruct (Nat.ltb_spec (length dims) (Datatypes.S k)); [lia|]. split; [reflexivity|].
  rewrite E. assert (D : (0 < d < 2 ^ 31)%N).
  { unfold array_shape in S. rewrite Forall_forall in S. apply S. eapply nth_error_In. exact E. }
  destruct (N.eqb_spec d 0); [lia|]. rewrite as_i32_small by lia. do 2 f_equal. lia.
Qed.

(** The bounds of each dimension are exactly the range of accepted subscripts: a subscript vector
    is accepted if and only if every subscript lies between the bounds of its dimension. *)
Theorem C29_bounds : forall dims subs, array_shape dims -> length subs = length dims ->
  (exists pos, flat_index dims subs = Ok pos) <->
  (forall k s, nth_error subs k = Some s ->
     exists lo hi, lbound dims (Some (Z.of_nat (S k))) = Some (Ok lo) /\
       ubound dims (Some (Z.of_nat (S k))) = Some (Ok hi) /\ (lo <= s <= hi)%Z).
Proof.
  intros dims subs S L. destruct (flat_index_char dims subs L) as [V I].
  assert (Eq : valid_subs dims subs <-> forall k s d, nth_error subs k = Some s -> nth_error dims k = Some d ->
                 (0 <= s < Z.of_N d)%Z).
  { unfold valid_subs. split.
    - intros H. clear - H. induction H as [|d s ds ss Hd H IH]; intros k x e Hk He; [destruct k; discriminate|].
      destruct k as [|k]; cbn in Hk, He; [injection Hk as <-; injection He as <-; lia|].
      eapply IH; eassumption.
    - clear V I. revert subs L. induction dims as [|d ds IH]; intros [|s ss] L H; try discriminate; constructor.
      + apply (H 0 s d); reflexivity.
      + apply IH; [inversion S; assumption|cbn in L; lia|]. intros k x e Hk He. apply (H (Datatypes.S k) x e); assumption. }
  split.
  - intros (pos & E) k s Hk.
    assert (Va : valid_subs dims subs).
    { destruct (flat_index dims subs) eqn:F; [|discriminate].
      assert (D : valid_subs dims subs \/ ~ valid_subs dims subs).
      { clear - L. revert subs L. unfold valid_subs. induction dims as [|d ds IH]; intros [|x ss] L; try discriminate.
        - left. constructor.
        - destruct (IH ss ltac:(cbn in L; lia)) as [H|H]; [|right; intros C; inversion C; auto].
          destruct (Z_le_dec 0 x); [|right; intros C; inversion C; lia].
          destruct (Z_lt_dec x (Z.of_N d)); [|right; intros C; inversion C; lia].
          left. constructor; [lia|assumption]. }
      destruct D as [D|D]; [exact D|]. destruct (I D) as (? & ? & _ & C). discriminate. }
    assert (Lk : k < length dims) by (rewrite <- L; apply nth_error_Some; congruence).
    destruct (nth_error dims k) as [d|] eqn:Ed; [|apply nth_error_None in Ed; lia].
    destruct (bounds_at dims k d S Ed) as [Lo Hi]. exists 0%Z, (Z.of_N d - 1)%Z.
    split; [exact Lo|]. split; [exact Hi|].
    pose proof (proj1 Eq Va k s d Hk Ed). lia.
  - intros H. exists (Mem_Spec.position dims subs). apply V. apply Eq. intros k s d Hk Hd.
    destruct (H k s Hk) as (lo & hi & Elo & Ehi & R). destruct (bounds_at dims k d S Hd) as [Lo Hi].
    assert (lo = 0%Z) by congruence. assert (hi = (Z.of_N d - 1)%Z) by congruence. lia.
Qed.
Print Assumptions C29_bounds.

(** Dimension numbers: negative and too large ones are errors, and a missing one is an error
    unless there is one dimension. *)
Theorem C29_dimension_errors : forall dims i, array_shape dims ->
  ((i < 0)%Z -> lbound dims (Some i) = Some (Err (BnNegative i)) /\ ubound dims (Some i) = Some (Err (BnNegative i))) /\
  ((Z.of_nat (length dims) < i)%Z ->
     lbound dims (Some i) = Some (Err (BnTooMany (length dims) (Z.to_nat i))) /\
     ubound dims (Some i) = Some (Err (BnTooMany (length dims) (Z.to_nat i)))) /\
  (length dims = 1 -> lbound dims None = lbound dims (Some 1%Z) /\ ubound dims None = ubound dims (Some 1%Z)) /\
  (1 < length dims -> lbound dims None = Some (Err BnNeedsDimension) /\ ubound dims None = Some (Err BnNeedsDimension)).
Proof.
  intros dims i S. unfold lbound, ubound, parse_bound_args.
  split; [|split; [|split]]; intros H.
  - destruct (Z.ltb_spec i 0); [auto|lia].
  - destruct (Z.ltb_spec i 0); [lia|]. destruct (Nat.ltb_spec (length dims) (Z.to_nat i)); [auto|lia].
  - cbn [Z.ltb]. rewrite H. cbn. auto.
  - destruct (Nat.ltb_spec 1 (length dims)); [auto|lia].
Qed.
Print Assumptions C29_dimension_errors.

(** Dimension 0 is not rejected: LBOUND answers 0 and UBOUND panics. *)
Theorem C29_dimension_zero_refuted : exists dims, array_shape dims /\
  lbound dims (Some 0%Z) = Some (Ok 0%Z) /\ ubound dims (Some 0%Z) = None.
Proof. exists [3%N]. split; [repeat constructor|split; reflexivity]. Qed.
Print Assumptions C29_dimension_zero_refuted.

Example C29_case : array_shape [3; 5]%N /\ ubound [3; 5]%N (Some 2%Z) = Some (Ok 4%Z) /\
  flat_index [3; 5]%N [2; 4]%Z = Ok 14%N /\ flat_index [3; 5]%N [2; 5]%Z = Err (SubExceeds 5 5).
Proof. repeat split; repeat constructor. Qed.
