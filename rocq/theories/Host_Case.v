(** A host with a command and two functions that keeps the contract. *)
From Coq Require Import String.
From Verif Require Import Base Bytecode_Model Mem_Model Mem_Spec Mem_Proofs Num_Model Vm_Model Vm_Spec Vm_Proofs Ids_Model
  Ids_Proofs Ast_Model Syms_Model Syms_Proofs Codegen_Model Exprs_Model Args_Spec Eval_Spec Eval_Proofs Call_Spec
  Run_Proofs Call_Proofs Host_Model Host_Proofs.
Local Open Scope string_scope.
Local Open Scope list_scope.
Local Open Scope nat_scope.

(** [OUT n] appends [n] to the integers that were printed; [HALF(n)] is half of [n] and fails if
    [n] is odd; [LAST] is what was printed last. *)
Definition one_integer : callable_syntax := mkSyntax [RequiredValue (u "N") TInteger SepEndOnly] None.
Definition demo_upcalls : list (ustr * callable_md) :=
  [ (u "OUT", mkMd (u "OUT") None true [one_integer] false);
    (u "HALF", mkMd (u "HALF") (Some TInteger) false [one_integer] false);
    (u "LAST", mkMd (u "LAST") (Some TInteger) false [mkSyntax [] None] false) ].

Inductive demo_calls : ustr -> list given -> env (list Z) -> res vm_error (option cdatum) -> env (list Z) -> Prop :=
| demo_out s z : demo_calls (u "OUT") [GValue (CInt z)] s (Ok None) (mkEnv (vals s) (world s ++ [z]))
| demo_half s z : Z.even z = true ->
    demo_calls (u "HALF") [GValue (CInt z)] s (Ok (Some (CInt (z / 2)))) s
| demo_odd s z : Z.even z = false ->
    demo_calls (u "HALF") [GValue (CInt z)] s (Err (XUpcall (u "Odd"))) s
| demo_last s l z : world s = l ++ [z] -> in_i32 z -> demo_calls (u "LAST") [] s (Ok (Some (CInt z))) s.

Definition demo_host (ups : list ustr) (idx first : N) (pc : nat) (img : image) (c : ctx) (h : heap) (w : list Z)
  : option (upcall_result (list Z)) :=
  let result z := match scope_return c first (i32_as_u64 z) with
                  | Some regs => Some (mkUpcall _ regs h w None)
                  | None => None
                  end in
  match nth_error ups (N.to_nat idx) with
  | None => None
  | Some k =>
      if ustr_eqb k (u "OUT") then Some (mkUpcall _ (c_regs c) h (w ++ [as_i32 (scope_get c first 0)]) None)
      else if ustr_eqb k (u "HALF") then
        let z := as_i32 (scope_get c first 1) in
        if Z.even z then result (z / 2)%Z else Some (mkUpcall _ (c_regs c) h w (Some (None, u "Odd")))
      else result (last w 0%Z)
  end.

Lemma as_i32_of z : in_i32 z -> as_i32 (i32_as_u64 z) = z.
Proof.
  unfold in_i32, i32_min, i32_max, as_i32, i32_as_u64. intros H.
  assert (E : Z.of_N (Z.to_N (z mod 2 ^ 64) mod 2 ^ 32) = (z mod 2 ^ 32)%Z).
  { rewrite N2Z.inj_mod, Z2N.id by (apply Z.mod_pos_bound; lia). change (Z.of_N (2 ^ 32)) with (2 ^ 32)%Z.
    change (2 ^ 64)%Z with (2 ^ 32 * 2 ^ 32)%Z. rewrite Z.rem_mul_r by lia.
    rewrite Z.add_mod, (Z.mul_comm (2 ^ 32)), Z.mod_mul, Z.add_0_r, !Z.mod_mod by lia. reflexivity. }
  set (w := (Z.to_N (z mod 2 ^ 64) mod 2 ^ 32)%N) in *. cbv zeta.
  destruct (Z.lt_ge_cases z 0) as [N0|P0].
  - assert (E1 : (z mod 2 ^ 32 = z + 2 ^ 32)%Z) by (symmetry; apply (Z.mod_unique_pos _ _ (-1)); lia).
    destruct (N.ltb_spec w (2 ^ 31)); lia.
  - rewrite Z.mod_small in E by lia. destruct (N.ltb_spec w (2 ^ 31)); lia.
Qed.
Lemma half_in z : in_i32 z -> in_i32 (z / 2).
Proof.
  unfold in_i32, i32_min, i32_max. intros H. pose proof (Z.div_mod z 2 ltac:(lia)). pose proof (Z.mod_pos_bound z 2 ltac:(lia)). lia.
Qed.

Section Demo.
Variable ups : list ustr.
Variable img : image.
Variable shared : ustr -> bool.

(** Leaving an integer in the register of the result. *)
Lemma leaves_result {W : Type} L hidden ls skip c (m : mem W) s ret gs z :
  tables_ok (by_now L ls) -> holding L hidden (i_constants img) ls skip c m s -> (64 <= ret < 256)%N ->
  (skip = Some ret \/ c_fp c + id_len (ls_locals ls) <= reg_index c ret) -> reg_index c ret < length (c_regs c) -> in_i32 z ->
  exists regs, scope_return c ret (i32_as_u64 z) = Some regs /\
    served img L hidden ls skip c m (Some (ret, TInteger)) gs (Ok (Some (CInt z))) s (mkUpcall _ regs m (m_world m) None).
Proof.
  intros T HD RR DS LT IZ. unfold scope_return. destruct (Nat.ltb_spec (reg_index c ret) (length (c_regs c))) as [_|GE]; [|clear -GE LT; lia].
  eexists. split; [reflexivity|]. right. cbn [u_failure u_regs u_heap u_world].
  pose proof (hd_fp _ _ _ _ _ _ _ _ HD) as FP.
  set (c' := set_regs c (upd (c_regs c) (reg_index c ret) (i32_as_u64 z))).
  assert (SL : forall i, i <> reg_index c ret -> slot c' i = slot c i).
  { intros i NE. unfold slot, c', set_regs. cbn [c_regs].
    pose proof (upd_nth_other (c_regs c) (reg_index c ret) i (i32_as_u64 z) (fun E => NE (eq_sym E))) as E.
    destruct (nth_error (c_regs c) i) as [a|] eqn:A.
    - rewrite (nth_error_nth _ _ _ E), (nth_error_nth _ _ _ A). reflexivity.
    - rewrite !nth_overflow; [reflexivity| |]; apply nth_error_None; assumption. }
  split; [reflexivity|]. split; [rewrite upd_length; apply le_n|].
  split; [split; [apply (hd_heap _ _ _ _ _ _ _ _ HD)|auto]|]. split; [|split].
  - eapply holding_same; [exact HD|apply HD|repeat split|reflexivity|apply heap_kept_refl, HD|].
    intros v r p G NS. apply SL. intros E. change (reg_index c r = reg_index c ret) in E. apply reg_index_inj in E; [|exact FP]. subst r.
    destruct DS as [DS|DS]; [contradiction|].
    destruct (lookup_range (by_now L ls) v ret p (proj1 T) G) as [R|[R _]]; [clear -R RR; lia|].
    cbn [by_now ls_locals] in R. revert DS. unfold reg_index, register_to_parts, max_global.
    destruct (N.ltb_spec ret 64); cbn [fst snd]; clear -R RR FP; lia.
  - intros i NE _. apply SL. apply (NE ret TInteger eq_refl).
  - intros d E. injection E as <-. cbn [stands_for]. split; [reflexivity|]. split; [exact IZ|].
    fold c'. unfold get_reg. change (reg_index c' ret) with (reg_index c ret). unfold c', set_regs. cbn [c_regs].
    rewrite (nth_error_nth _ _ _ (upd_nth_same _ _ _ LT)). apply as_i32_of, IZ.
Qed.

Lemma demo_obeys : host_obeys (demo_host ups) img ups demo_calls demo_upcalls shared.
Proof.
  constructor.
  - intros idx first pc c c' h w R F. unfold demo_host, scope_return, scope_get, slot.
    assert (E : reg_index c first = reg_index c' first) by (unfold reg_index; rewrite F; reflexivity).
    rewrite R, E. reflexivity.
  - intros k gs s r s' k' H _ _ V. destruct H; exact V.
  - intros L hidden ls skip c m s idx k md t ret pc gs r s' UP MD RT T HD RR DS LT LA GA CC.
    unfold demo_host. rewrite UP.
    destruct CC as [s z|s z EV|s z EV|s l z WL IZ]; cbn [ustr_eqb]; cbn in MD; injection MD as <-; cbn [md_return] in RT;
      try discriminate RT; injection RT as <-.
    + pose proof (LA 0 _ eq_refl) as (_ & IZ & A). rewrite Nat.add_0_r, <- (Nat.add_1_r (reg_index c ret)) in A.
      change (slot c (reg_index c ret + 1)) with (scope_get c ret 1) in A. rewrite A.
      change (ustr_eqb (u "HALF") (u "OUT")) with false. change (ustr_eqb (u "HALF") (u "HALF")) with true. cbv iota.
      rewrite EV. destruct (leaves_result L hidden ls skip c m s ret [GValue (CInt z)] (z / 2) T HD RR DS LT (half_in _ IZ)) as (regs & -> & SV).
      eexists. split; [reflexivity|exact SV].
    + pose proof (LA 0 _ eq_refl) as (_ & IZ & A). rewrite Nat.add_0_r, <- (Nat.add_1_r (reg_index c ret)) in A.
      change (slot c (reg_index c ret + 1)) with (scope_get c ret 1) in A. rewrite A.
      change (ustr_eqb (u "HALF") (u "OUT")) with false. change (ustr_eqb (u "HALF") (u "HALF")) with true. cbv iota.
      rewrite EV. eexists. split; [reflexivity|]. right. split; [exists None, (u "Odd"); split; reflexivity|].
      cbn [u_world]. apply HD.
    + change (ustr_eqb (u "LAST") (u "OUT")) with false. change (ustr_eqb (u "LAST") (u "HALF")) with false. cbv iota.
      rewrite (hd_world _ _ _ _ _ _ _ _ HD), WL, last_last.
      destruct (leaves_result L hidden ls skip c m s ret [] z T HD RR DS LT IZ) as (regs & -> & SV).
      eexists. split; [reflexivity|]. rewrite (hd_world _ _ _ _ _ _ _ _ HD), WL in SV. exact SV.
  - intros L hidden ls c m s idx k md first pc gs r s' UP MD RT T HD RR LA GA GR CC.
    unfold demo_host. rewrite UP.
    destruct CC as [s z|s z EV|s z EV|s l z WL IZ]; cbn in MD; injection MD as <-; cbn [md_return] in RT; try discriminate RT.
    change (ustr_eqb (u "OUT") (u "OUT")) with true. cbv iota.
    pose proof (LA 0 _ eq_refl) as (_ & _ & A). change (slot c (reg_index c first + 0)) with (scope_get c first 0) in A. rewrite A.
    eexists. split; [reflexivity|]. right. cbn [u_failure u_regs u_heap u_world].
    split; [reflexivity|]. split; [apply le_n|]. split; [split; [apply (hd_heap _ _ _ _ _ _ _ _ HD)|auto]|].
    assert (EC : set_regs c (c_regs c) = c) by (destruct c; reflexivity). rewrite EC. split; [|split; [reflexivity|exact Logic.I]].
    destruct HD as [A1 A2 A3 A4 A5 A6 A7 A8 A9 A10]. constructor; auto. cbn [m_world world]. rewrite A5. reflexivity.
Qed.
End Demo.
