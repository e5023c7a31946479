(** The GPIO commands and functions do what they are to do. *)
From Coq Require Import String.
From Verif Require Import Base Bytecode_Model Mem_Model Num_Model Vm_Model Ast_Model Syms_Model Call_Spec Strings_Model Strings_Spec Cmds_Model Cmds_Spec
  Cmds_Proofs Lib_Model Lib_Spec Gpio_Model Gpio_Spec.
Local Open Scope string_scope.
Local Open Scope list_scope.
Local Open Scope nat_scope.

Lemma pin_ok z : is_pin z -> pin_from_i32 z = Ok (Z.to_N z).
Proof.
  intros [A B]. unfold pin_from_i32. destruct (Z.ltb_spec z 0); [lia|]. destruct (Z.ltb_spec 255 z); [lia|reflexivity].
Qed.
Lemma pin_bad z msg : bad_pin z msg -> pin_from_i32 z = Err msg.
Proof.
  intros H. unfold pin_from_i32. destruct (to_string_numeral z) as (d' & D' & ->).
  destruct H as [d LT D|d LT D]; rewrite (numeral_unique _ _ _ D' D).
  - destruct (Z.ltb_spec z 0); [reflexivity|lia].
  - destruct (Z.ltb_spec z 0); [lia|]. destruct (Z.ltb_spec 255 z); [reflexivity|lia].
Qed.
(** Every number is a pin or not. *)
Lemma pin_cases z : is_pin z \/ exists msg, bad_pin z msg.
Proof.
  destruct (to_string_numeral z) as (d & D & _). unfold is_pin.
  destruct (Z.lt_ge_cases z 0); [right; eexists; apply Pin_negative; eassumption|].
  destruct (Z.lt_ge_cases 255 z); [right; eexists; apply Pin_large; eassumption|]. left. lia.
Qed.

Lemma mode_ok t m : names_mode t m -> pin_mode_parse t = Ok m.
Proof. unfold names_mode, pin_mode_parse. intros ->. destruct m; reflexivity. Qed.
Lemma mode_named t m : pin_mode_parse t = Ok m -> names_mode t m.
Proof.
  unfold names_mode, pin_mode_parse.
  repeat match goal with |- context [ustr_eqb ?a ?b] => destruct (ustr_eqb a b) eqn:?; [|] end;
    repeat match goal with E : ustr_eqb _ _ = true |- _ => apply ustr_eqb_eq in E end;
    intros E; try discriminate E; injection E as <-; assumption.
Qed.
Lemma mode_bad t : (forall m, ~ names_mode t m) -> pin_mode_parse t = Err (u "Unknown pin mode " ++ ascii_upper t).
Proof.
  intros H. destruct (pin_mode_parse t) as [m|e] eqn:Q; [destruct (H m (mode_named _ _ Q))|].
  revert Q. unfold pin_mode_parse.
  repeat match goal with |- context [ustr_eqb ?a ?b] => destruct (ustr_eqb a b); [discriminate|] end. intros E. injection E as <-. reflexivity.
Qed.

Lemma Err_inj {E A} (a b : E) : @Err E A a = Err b -> a = b.
Proof. intros H. injection H as ->. reflexivity. Qed.
Section Scope.
Variable arg : nat -> N.
Variable text_of : N -> option ustr.
Variable pos : list linecol.

Lemma parse_pin_ok k z : as_i32 (arg k) = z -> is_pin z -> parse_pin arg pos k = Some (Ok (Z.to_N z)).
Proof. intros A P. unfold parse_pin. rewrite A, (pin_ok z P). reflexivity. Qed.
Lemma parse_pin_bad k z msg : as_i32 (arg k) = z -> bad_pin z msg -> k < length pos -> exists p, parse_pin arg pos k = Some (Err (p, msg)).
Proof.
  intros A P LT. unfold parse_pin, syntax_error. rewrite A, (pin_bad z msg P).
  destruct (nth_error pos k) as [q|] eqn:Q; [eexists; reflexivity|]. apply nth_error_None in Q. lia.
Qed.

Lemma ask_answered {W} (perform : pin_op -> W -> W * res ustr bool) op w w' a r : perform op w = (w', a) -> answered op a r ->
  exists r', ask_chip perform op w = (w', r') /\ said r' = r.
Proof.
  intros P A. unfold ask_chip. rewrite P. destruct A as [b [pin ->]|b N0|msg]; (eexists; split; [reflexivity|]); cbn [said]; try reflexivity.
  destruct op; try reflexivity. destruct N0. eexists. reflexivity.
Qed.
End Scope.

Ltac in_list := repeat match goal with H : In _ (_ :: _) |- _ => destruct H as [H|H]; [try discriminate H|] | H : In _ [] |- _ => destruct H end.
Lemma given_values l : only_values (map GValue l).
Proof. intros k t I0. apply in_map_iff in I0. destruct I0 as (d & E & _). discriminate E. Qed.

Lemma asks_values k gs o : asks_chip k gs o -> only_values gs.
Proof. intros H k' t I0. destruct H; in_list. Qed.

Lemma chip_answers {W} (perform : pin_op -> W -> W * res ustr bool) k gs w r w' ps : gpio_does perform k gs w r w' ->
  (forall k0, In k0 [u "GPIO_CLEAR"; u "GPIO_READ"; u "GPIO_SETUP"; u "GPIO_WRITE"] ->
    find (fun p => ustr_eqb (pv_name p) k0) ps = find (fun p => ustr_eqb (pv_name p) k0) (gpio_provided perform)) ->
  only_values gs /\
  exists p, find (fun p => ustr_eqb (pv_name p) k) ps = Some p /\
    (forall v, r = Ok v -> declares (pv_md p) v) /\
    forall arg text_of pos, given_from arg text_of 0 gs -> length pos = length gs ->
      exists r', pv_exec p arg text_of pos w = Some (w', r') /\ said r' = r.
Proof.
  intros H FI.
  assert (AV : exists o, asks_chip k gs o) by (destruct H as [(op & a & A & _)|(msg & A & _)]; eexists; exact A).
  split; [destruct AV as [o A]; exact (asks_values _ _ _ A)|]. clear AV.
  destruct H as [(op & a & A & P & AN)|(msg & A & -> & ->)].
  - remember (Ok op) as o eqn:EO.
    destruct A as [z t m IP NM|z t IP NM|z t msg BP| |z IP|z msg BP|z IP|z msg BP|z b IP|z b msg BP]; try discriminate EO; injection EO as <-;
      (rewrite FI by (cbn; auto 6)); cbn [find gpio_provided pv_name]; eexists; (split; [reflexivity|]); cbn [pv_md pv_exec]; (split; [
        intros v ->; inversion AN as [? [? E]|? N0|]; subst; cbn; auto; try discriminate E;
        try (split; [reflexivity|intros ? X; discriminate X]); exfalso; apply N0; eexists; reflexivity | ]);
      intros arg text_of pos GF LE; destruct (ask_answered perform _ _ _ _ _ P AN) as (r' & AC & SD); exists r'; (split; [|exact SD]);
      try (pose proof (GF 0 _ eq_refl) as G0; cbn [given_at Nat.add] in G0); try (pose proof (GF 1 _ eq_refl) as G1; cbn [given_at Nat.add] in G1).
    + unfold gpio_setup_exec, parse_pin_mode. rewrite (parse_pin_ok arg pos 0 z G0 IP), G1, (mode_ok _ _ NM), AC. reflexivity.
    + unfold gpio_clear_exec. rewrite LE. cbn [length Nat.eqb]. rewrite AC. reflexivity.
    + unfold gpio_clear_exec. rewrite LE, (parse_pin_ok arg pos 0 z G0 IP). cbn [length Nat.eqb]. rewrite AC. reflexivity.
    + unfold gpio_read_exec. rewrite (parse_pin_ok arg pos 0 z G0 IP), AC. reflexivity.
    + unfold gpio_write_exec. rewrite (parse_pin_ok arg pos 0 z G0 IP), G1. destruct b; cbn [N.eqb negb]; rewrite AC; reflexivity.
  - remember (Err msg) as o eqn:EO.
    destruct A as [z t m IP NM|z t IP NM|z t msg' BP| |z IP|z msg' BP|z IP|z msg' BP|z b IP|z b msg' BP]; try discriminate EO; apply Err_inj in EO; subst msg;
      (rewrite FI by (cbn; auto 6)); cbn [find gpio_provided pv_name]; eexists; (split; [reflexivity|]); cbn [pv_md pv_exec];
      (split; [intros v E; discriminate E|]);
      intros arg text_of pos GF LE; cbn [length] in LE;
      pose proof (GF 0 _ eq_refl) as G0; cbn [given_at Nat.add] in G0; try (pose proof (GF 1 _ eq_refl) as G1; cbn [given_at Nat.add] in G1).
    + unfold gpio_setup_exec, parse_pin_mode, syntax_error. rewrite (parse_pin_ok arg pos 0 z G0 IP), G1, (mode_bad _ NM).
      destruct (nth_error pos 1) as [q|] eqn:Q; [eexists; split; reflexivity|]. apply nth_error_None in Q. lia.
    + destruct (parse_pin_bad arg pos 0 z _ G0 BP) as [q E]; [lia|]. unfold gpio_setup_exec. rewrite E. eexists; split; reflexivity.
    + destruct (parse_pin_bad arg pos 0 z _ G0 BP) as [q E]; [lia|]. unfold gpio_clear_exec. rewrite LE, E. cbn [Nat.eqb]. eexists; split; reflexivity.
    + destruct (parse_pin_bad arg pos 0 z _ G0 BP) as [q E]; [lia|]. unfold gpio_read_exec. rewrite E. eexists; split; reflexivity.
    + destruct (parse_pin_bad arg pos 0 z _ G0 BP) as [q E]; [lia|]. unfold gpio_write_exec. rewrite E. eexists; split; reflexivity.
Qed.

Lemma gpio_provides {W} (perform : pin_op -> W -> W * res ustr bool) : provides (gpio_provided perform) (gpio_does perform).
Proof. intros k gs w r w' H. apply (chip_answers perform); [exact H|reflexivity]. Qed.

Lemma mock_provides : provides mock_provided mock_does.
Proof.
  intros k gs w r w' H. destruct H as [z b p IP|z b msg p BP|p|k gs p r p' H].
  - split; [intros k t I0; in_list|]. eexists. split; [reflexivity|]. cbn [pv_md pv_exec]. split; [intros v E; injection E as <-; exact Logic.I|].
    intros arg text_of pos GF LE. pose proof (GF 0 _ eq_refl) as G0. pose proof (GF 1 _ eq_refl) as G1. cbn [given_at Nat.add] in G0, G1.
    unfold mock_inject_exec. rewrite (parse_pin_ok arg pos 0 z G0 IP), G1. exists (Ok None). destruct b; split; reflexivity.
  - split; [intros k t I0; in_list|]. eexists. split; [reflexivity|]. cbn [pv_md pv_exec]. split; [intros v E; discriminate E|].
    intros arg text_of pos GF LE. cbn [length] in LE. pose proof (GF 0 _ eq_refl) as G0. cbn [given_at Nat.add] in G0.
    destruct (parse_pin_bad arg pos 0 z _ G0 BP) as [q E]; [lia|]. unfold mock_inject_exec. rewrite E. eexists; split; reflexivity.
  - split; [intros k t I0; in_list|]. eexists. split; [reflexivity|]. cbn [pv_md pv_exec].
    split; [intros v E; injection E as <-; cbn; split; [reflexivity|intros z X; discriminate X]|].
    intros arg text_of pos _ _. eexists. split; reflexivity.
  - apply (chip_answers mock_perform); [exact H|]. intros k0 I0. cbn [In] in I0. destruct I0 as [<-|[<-|[<-|[<-|[]]]]]; reflexivity.
Qed.

(** ** The trace *)

Lemma deed_encoded pin op d : (0 < op < 100)%Z -> deed_of (Z.of_N pin * 100 + op) = d <->
  match op with
  | 1 => Some (Deed (SetupPin pin ModeIn))
  | 2 => Some (Deed (SetupPin pin ModeInPullDown))
  | 3 => Some (Deed (SetupPin pin ModeInPullUp))
  | 4 => Some (Deed (SetupPin pin ModeOut))
  | 5 => Some (Deed (ClearPin pin))
  | 10 => Some (DeedRead pin false)
  | 11 => Some (DeedRead pin true)
  | 20 => Some (Deed (WritePin pin false))
  | 21 => Some (Deed (WritePin pin true))
  | _ => None
  end%Z = d.
Proof.
  intros R. unfold deed_of. destruct (Z.eqb_spec (Z.of_N pin * 100 + op) (-1)); [lia|].
  assert (Q : ((Z.of_N pin * 100 + op) / 100 = Z.of_N pin)%Z) by (symmetry; apply (Z.div_unique _ _ _ op); lia).
  assert (M : ((Z.of_N pin * 100 + op) mod 100 = op)%Z) by (symmetry; apply (Z.mod_unique _ _ (Z.of_N pin)); lia).
  rewrite Q, M, N2Z.id. reflexivity.
Qed.

Lemma trace_history p l : history p l -> map deed_of (mk_trace p) = map Some l.
Proof.
  induction 1 as [|p l pin b H IH|p l op p' b H IH E|p l op p' msg H IH E].
  - reflexivity.
  - exact IH.
  - assert (X : exists z, mk_trace p' = mk_trace p ++ [z] /\ deed_of z = Some (match op with ReadPin pin => DeedRead pin b | _ => Deed op end)).
    { destruct op as [pin m|pin| |pin|pin v]; cbn [mock_perform] in E.
      - injection E as <- <-. eexists. split; [reflexivity|]. unfold mock_encode. apply deed_encoded; destruct m; try reflexivity; lia.
      - injection E as <- <-. eexists. split; [reflexivity|]. unfold mock_encode. apply deed_encoded; [lia|reflexivity].
      - injection E as <- <-. eexists. split; reflexivity.
      - destruct (mk_reads p) as [|[q b'] rest]; [discriminate E|]. cbv zeta in E. destruct (q =? pin)%N; [|discriminate E].
        injection E as <- <-. eexists. split; [reflexivity|]. unfold mock_encode. apply deed_encoded; destruct b'; try reflexivity; lia.
      - injection E as <- <-. eexists. split; [reflexivity|]. unfold mock_encode. apply deed_encoded; destruct v; try reflexivity; lia. }
    destruct X as (z & -> & Z0). rewrite !map_app, IH. cbn [map]. rewrite Z0. reflexivity.
  - assert (X : mk_trace p' = mk_trace p).
    { destruct op as [pin m|pin| |pin|pin v]; cbn [mock_perform] in E; try discriminate E.
      destruct (mk_reads p) as [|[q b'] rest]; [injection E as <- _; reflexivity|]. cbv zeta in E.
      destruct (q =? pin)%N; [discriminate E|]. injection E as <- _. reflexivity. }
    rewrite X. exact IH.
Qed.

(** The text of the trace tells the numbers. *)
Definition wordy (x : ustr) : Prop := x <> [] /\ ~ In 32%N x.
Lemma to_string_wordy z : wordy (to_string z).
Proof.
  destruct (to_string_numeral z) as (d & (DG & NE & _) & ->).
  assert (ND : ~ In 32%N d).
  { intros I0. unfold digits in DG. rewrite Forall_forall in DG. specialize (DG _ I0). revert DG. vm_compute. intros [A B]. apply A. reflexivity. }
  destruct (z <? 0)%Z; split; try discriminate; try exact NE; try exact ND. intros [E|I0]; [discriminate E|exact (ND I0)].
Qed.
Lemma to_string_inj a b : to_string a = to_string b -> a = b.
Proof.
  intros E. destruct (to_string_numeral a) as (d & D & EA). destruct (to_string_numeral b) as (e & D' & EB). rewrite EA, EB in E.
  assert (NM : forall z x, numeral z x -> forall r, x <> 45%N :: r).
  { clear. intros z x (DG & _) r ->. unfold digits in DG. inversion DG as [|? ? A _]; subst. revert A. vm_compute. intros [A _]. apply A. reflexivity. }
  assert (V : d = e -> Z.abs a = Z.abs b) by (intros ->; destruct D as (_ & _ & _ & <-), D' as (_ & _ & _ & V2); exact V2).
  destruct (Z.ltb_spec a 0), (Z.ltb_spec b 0).
  - injection E as E. specialize (V E). lia.
  - destruct (NM _ _ D' _ (eq_sym E)).
  - destruct (NM _ _ D _ E).
  - specialize (V E). lia.
Qed.
Lemma words_split x y (a b : ustr) : ~ In 32%N x -> ~ In 32%N y -> x ++ 32%N :: a = y ++ 32%N :: b -> x = y /\ a = b.
Proof.
  revert y. induction x as [|c x IH]; intros [|c' y] NX NY E; cbn [app] in E.
  - injection E as E. auto.
  - injection E as E _. destruct NY. left. symmetry. exact E.
  - injection E as E _. destruct NX. left. exact E.
  - injection E as -> E. destruct (IH y) as [-> ->]; auto; intros I0; [apply NX|apply NY]; right; exact I0.
Qed.
Lemma join_words_inj l : forall l', Forall wordy l -> Forall wordy l' -> join_words l = join_words l' -> l = l'.
Proof.
  assert (SP : forall x a y, wordy y -> x ++ 32%N :: a = y -> False).
  { intros x a y [_ NI] E. apply NI. rewrite <- E. apply in_or_app. right. left. reflexivity. }
  induction l as [|x l IH]; intros [|y l'] F F' E; [reflexivity| | |].
  - exfalso. inversion F' as [|? ? [A _] _]; subst. destruct l'; cbn [join_words] in E; destruct y; try discriminate E; apply A; reflexivity.
  - exfalso. inversion F as [|? ? [A _] _]; subst. destruct l; cbn [join_words] in E; destruct x; try discriminate E; apply A; reflexivity.
  - inversion F as [|? ? A F1]; subst. inversion F' as [|? ? A' F1']; subst.
    destruct l as [|x' l], l' as [|y' l'].
    + cbn [join_words] in E. rewrite E. reflexivity.
    + exfalso. eapply SP; [exact A|symmetry; exact E].
    + exfalso. eapply SP; [exact A'|exact E].
    + change (x ++ 32%N :: join_words (x' :: l) = y ++ 32%N :: join_words (y' :: l')) in E.
      apply words_split in E; [|apply A|apply A']. destruct E as [-> E]. f_equal. apply IH; assumption.
Qed.
Lemma trace_text_inj p p' : mock_trace_text p = mock_trace_text p' -> mk_trace p = mk_trace p'.
Proof.
  unfold mock_trace_text. intros E.
  assert (F : forall l, Forall wordy (map to_string l)) by (intros l; apply Forall_map, Forall_forall; intros; apply to_string_wordy).
  apply join_words_inj in E; [|apply F|apply F]. revert E. generalize (mk_trace p) as l, (mk_trace p') as l'. clear.
  induction l as [|a l IH]; intros [|b l'] E; try discriminate E; [reflexivity|]. injection E as E1 E2. f_equal; [apply to_string_inj, E1|apply IH, E2].
Qed.

(** Reads find the levels that were injected, in order. *)
Fixpoint reads_of (pins : list N) (p : mock) : list (res ustr bool) * mock :=
  match pins with
  | [] => ([], p)
  | pin :: rest => let '(p1, a) := mock_perform (ReadPin pin) p in let '(l, p2) := reads_of rest p1 in (a :: l, p2)
  end.
Lemma reads_in_order l : forall rest p, mk_reads p = l ++ rest ->
  fst (reads_of (map fst l) p) = map (fun x => Ok (snd x)) l /\ mk_reads (snd (reads_of (map fst l) p)) = rest.
Proof.
  induction l as [|[pin b] l IH]; intros rest p E; cbn [map fst reads_of snd]; [split; [reflexivity|exact E]|].
  cbn [mock_perform]. rewrite E. cbn [app]. cbv zeta. rewrite N.eqb_refl.
  set (p1 := mock_push _ _). destruct (IH rest p1 eq_refl) as [A B]. destruct (reads_of (map fst l) p1) as [rs p2] eqn:Q.
  cbn [fst snd] in *. rewrite A, B. split; reflexivity.
Qed.
