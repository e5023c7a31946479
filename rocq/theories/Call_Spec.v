(** What expressions with calls and array elements mean, and what is asked of the functions and
    commands that the host provides. *)
From Coq Require Import String.
From Verif Require Import Base Bytecode_Model Mem_Model Mem_Spec Num_Model Vm_Model Vm_Spec Ids_Model Ids_Proofs Ast_Model
  Syms_Model Codegen_Model Exprs_Model Args_Spec Eval_Spec.
Local Open Scope string_scope.
Local Open Scope list_scope.
Local Open Scope nat_scope.

(** * Values *)

(** What a variable contains: a value, or the elements of an array by subscripts. *)
Inductive content :=
| Scalar (d : cdatum)
| Elements (t : etype) (dims : list N) (at_ : list Z -> cdatum).

(** The contents of the variables that have one, by name in upper case, and the world outside of
    the machine: files, the console, and so on. *)
Record env (W : Type) := mkEnv { vals : ustr -> option content; world : W }.
Arguments mkEnv {W}.
Arguments vals {W}.
Arguments world {W}.

(** One thing that a function or command is given: a value; a tag that says what comes next; or a
    variable, by name, that it may read and change, with its type if it is known that it is not an
    array. *)
Inductive given :=
| GValue (d : cdatum)
| GTag (t : vararg_tag)
| GRef (k : ustr) (t : option etype).

(** One argument as the declaration of what is called wants it: a value, perhaps of a given type,
    with a tag that has the separator after it where the declaration leaves a choice; nothing,
    where there may be nothing; or a variable. *)
Inductive want :=
| WValue (tag : option argsep) (t : option etype) (e : expr)
| WMissing (sep : argsep)
| WRef (tag : option argsep) (v : varref).

(** Arguments of the fixed parameters. *)
Definition fixed_want (syn : singular_syntax) (a : argspan) : list want :=
  match syn, a with
  | RequiredValue _ t _, (Some e, _, _) => [WValue None (Some t) e]
  | RequiredRef _ _ _ _, (Some (ESymbol v _), _, _) => [WRef None v]
  | OptionalValue _ t _, (Some e, sep, _) => [WValue (Some sep) (Some t) e]
  | AnyValue _ _ _, (Some e, sep, _) => [WValue (Some sep) None e]
  | OptionalValue _ _ _, (None, sep, _) | AnyValue _ _ _, (None, sep, _) => [WMissing sep]
  | _, _ => []
  end.
Fixpoint fixed_wants (syns : list singular_syntax) (args : list argspan) : list want :=
  match syns, args with
  | syn :: syns', a :: args' => fixed_want syn a ++ fixed_wants syns' args'
  | _, _ => []
  end.

(** Arguments of the repeated parameter, which have tags unless they are all of one type, with
    one separator, and none may be missing. *)
Definition untagged (rp : repeated_syntax) : bool :=
  match rp_type rp, rp_allow_missing rp, rp_sep rp with
  | RepTyped _, false, SepExactly _ => true
  | _, _, _ => false
  end.
Definition repeated_want (rp : repeated_syntax) (a : argspan) : list want :=
  match a with
  | (None, sep, _) => [WMissing sep]
  | (Some e, sep, _) =>
      let tag := if untagged rp then None else Some sep in
      match rp_type rp, e with
      | RepAny, _ => [WValue tag None e]
      | RepTyped t, _ => [WValue tag (Some t) e]
      | RepRef, ESymbol v _ => [WRef tag v]
      | RepRef, _ => []
      end
  end.
Definition repeated_wants (rp : repeated_syntax) (args : list argspan) : list want :=
  match args with
  | [] => if untagged rp then [] else [WMissing SepEnd]
  | _ => flat_map (repeated_want rp) args
  end.

Definition wants (syn : callable_syntax) (args : list argspan) : list want :=
  fixed_wants (sy_singular syn) args ++
  match sy_repeated syn with
  | None => []
  | Some rp => repeated_wants rp (skipn (length (sy_singular syn)) args)
  end.

(** Subscripts are integers. *)
Definition subscripts (es : list expr) : list want := map (WValue None (Some TInteger)) es.
Definition arg_exprs (args : list argspan) : list expr :=
  flat_map (fun a => match a with (Some e, _, _) => [e] | _ => [] end) args.
Definition bad_subscript (z : Z) (d : N) : vm_error :=
  XSubscript (if (z <? 0)%Z then SubNegative z else SubExceeds (Z.to_N z) d).

Definition convert_to (t : option etype) (a : cdatum) : option (res vm_error cdatum) :=
  match t with Some t => convert t a | None => Some (Ok a) end.

Section Evaluation.
Variable powf : N -> N -> N.
Context {W : Type}.
(** The functions and commands, by name in upper case. *)
Variable callable : ustr -> option callable_md.
(** Whether a name is one of a variable. *)
Variable variable : ustr -> bool.
(** What calling one of them with these arguments may do: the value that it returns, if it is a
    function, or the error; and what it leaves. *)
Variable calls : ustr -> list given -> env W -> res vm_error (option cdatum) -> env W -> Prop.

(** Evaluation goes from left to right; each part may change the variables and the world that the
    next part sees. *)
Inductive evals : env W -> expr -> res vm_error cdatum -> env W -> Prop :=
| V_boolean s b p : evals s (EBoolean b p) (Ok (CBool b)) s
| V_double s d p : evals s (EDouble d p) (Ok (CDouble d)) s
| V_integer s z p : evals s (EInteger z p) (Ok (CInt z)) s
| V_text s t p : evals s (EText t p) (Ok (CText t)) s
| V_variable s v p d : vals s (ascii_upper (vr_name v)) = Some (Scalar d) ->
    evals s (ESymbol v p) (Ok d) s
| V_function s v p k d s' : k = ascii_upper (vr_name v) -> variable k = false ->
    calls k [] s (Ok (Some d)) s' -> evals s (ESymbol v p) (Ok d) s'
| V_function_fails s v p k x s' : k = ascii_upper (vr_name v) -> variable k = false ->
    calls k [] s (Err x) s' -> evals s (ESymbol v p) (Err x) s'
| V_binary s o l r p a s1 b s2 q : evals s l (Ok a) s1 -> evals s1 r (Ok b) s2 ->
    apply2 powf o a b = Some q -> evals s (EBinary o l r p) q s2
| V_left_fails s o l r p x s1 : evals s l (Err x) s1 -> evals s (EBinary o l r p) (Err x) s1
| V_right_fails s o l r p a s1 x s2 : evals s l (Ok a) s1 -> evals s1 r (Err x) s2 ->
    evals s (EBinary o l r p) (Err x) s2
| V_unary s o e p a s1 q : evals s e (Ok a) s1 -> apply1 o a = Some q -> evals s (EUnary o e p) q s1
| V_unary_fails s o e p x s1 : evals s e (Err x) s1 -> evals s (EUnary o e p) (Err x) s1
(* Calls of functions *)
| V_call s v p args k md syn gs s1 d s2 : k = ascii_upper (vr_name v) -> callable k = Some md ->
    chosen md (length args) syn -> delivers false s (wants syn args) (Ok gs) s1 ->
    calls k gs s1 (Ok (Some d)) s2 -> evals s (ECall v p args) (Ok d) s2
| V_call_fails s v p args k md syn gs s1 x s2 : k = ascii_upper (vr_name v) -> callable k = Some md ->
    chosen md (length args) syn -> delivers false s (wants syn args) (Ok gs) s1 ->
    calls k gs s1 (Err x) s2 -> evals s (ECall v p args) (Err x) s2
| V_argument_fails s v p args k md syn x s1 : k = ascii_upper (vr_name v) -> callable k = Some md ->
    chosen md (length args) syn -> delivers false s (wants syn args) (Err x) s1 ->
    evals s (ECall v p args) (Err x) s1
(* Elements of arrays *)
| V_element s v p args k zs s1 t dims at_ : k = ascii_upper (vr_name v) -> callable k = None ->
    delivers false s (subscripts (arg_exprs args)) (Ok (map (fun z => GValue (CInt z)) zs)) s1 ->
    vals s1 k = Some (Elements t dims at_) -> valid_subs dims zs ->
    evals s (ECall v p args) (Ok (at_ zs)) s1
| V_out_of_range s v p args k zs s1 t dims at_ z d : k = ascii_upper (vr_name v) -> callable k = None ->
    delivers false s (subscripts (arg_exprs args)) (Ok (map (fun z => GValue (CInt z)) zs)) s1 ->
    vals s1 k = Some (Elements t dims at_) -> first_bad dims zs z d ->
    evals s (ECall v p args) (Err (bad_subscript z d)) s1
| V_subscript_fails s v p args k x s1 : k = ascii_upper (vr_name v) -> callable k = None ->
    delivers false s (subscripts (arg_exprs args)) (Err x) s1 -> evals s (ECall v p args) (Err x) s1
(* The value as one of a type, if it matters *)
with evals_as : env W -> option etype -> expr -> res vm_error cdatum -> env W -> Prop :=
| A_value s t e a s1 q : evals s e (Ok a) s1 -> convert_to t a = Some q -> evals_as s t e q s1
| A_fails s t e x s1 : evals s e (Err x) s1 -> evals_as s t e (Err x) s1
(* What an argument gives.  Commands may be given variables that have no content yet: [new]. *)
with gives : bool -> env W -> want -> res vm_error (list given) -> env W -> Prop :=
| G_plain new s t e d s1 : evals_as s t e (Ok d) s1 -> gives new s (WValue None t e) (Ok [GValue d]) s1
| G_tagged new s sep t e d s1 : evals_as s t e (Ok d) s1 ->
    gives new s (WValue (Some sep) t e) (Ok [GTag (VImmediate sep (cdatum_etype d)); GValue d]) s1
| G_fails new s tag t e x s1 : evals_as s t e (Err x) s1 -> gives new s (WValue tag t e) (Err x) s1
| G_missing new s sep : gives new s (WMissing sep) (Ok [GTag (VMissing sep)]) s
| G_variable new s v k : k = ascii_upper (vr_name v) -> new = true \/ vals s k <> None ->
    gives new s (WRef None v) (Ok [GRef k None]) s
| G_tagged_variable new s sep v k : k = ascii_upper (vr_name v) -> new = true \/ vals s k <> None ->
    gives new s (WRef (Some sep) v) (Ok [GTag (VPointer sep); GRef k None]) s
with delivers : bool -> env W -> list want -> res vm_error (list given) -> env W -> Prop :=
| D_none new s : delivers new s [] (Ok []) s
| D_more new s w ws g s1 gs s2 : gives new s w (Ok g) s1 -> delivers new s1 ws (Ok gs) s2 ->
    delivers new s (w :: ws) (Ok (g ++ gs)) s2
| D_fails new s w ws x s1 : gives new s w (Err x) s1 -> delivers new s (w :: ws) (Err x) s1
| D_later_fails new s w ws g s1 x s2 : gives new s w (Ok g) s1 -> delivers new s1 ws (Err x) s2 ->
    delivers new s (w :: ws) (Err x) s2.
End Evaluation.

(** The literals of an expression, of its arguments too, are 32-bit integers; and so on for other
    conditions on the names in it. *)
Section Within.
Variable Pn : bool -> varref -> Prop.
Variable Pz : Z -> Prop.
(** [Pn false v] for a name without arguments and [Pn true v] for one with arguments. *)
Fixpoint within (e : expr) : Prop :=
  match e with
  | EInteger z _ => Pz z
  | ESymbol v _ => Pn false v
  | EBinary _ l r _ => within l /\ within r
  | EUnary _ e _ => within e
  | ECall v _ args => Pn true v /\
      (fix go (l : list (option expr * argsep * linecol)) : Prop :=
         match l with
         | [] => True
         | (Some a, _, _) :: l' => within a /\ go l'
         | (None, _, _) :: l' => go l'
         end) args
  | EBoolean _ _ | EDouble _ _ | EText _ _ => True
  end.
End Within.

(** The leftmost part of an expression, which is computed in the register of the whole. *)
Fixpoint leftmost (e : expr) : expr :=
  match e with EBinary _ l _ _ => leftmost l | EUnary _ e _ => leftmost e | _ => e end.

(** * The machine and its host *)

(** The heap of the machine and the world of the host. *)
Set Primitive Projections.
Record mem (W : Type) := mkMem { m_heap : heap; m_world : W }.
Unset Primitive Projections.
Arguments mkMem {W}.
Arguments m_heap {W}.
Arguments m_world {W}.
Coercion m_heap : mem >-> heap.

Section Host.
Variable powf : N -> N -> N.
Context {W : Type}.
Variable upcall : N -> N -> nat -> image -> ctx -> heap -> W -> option (upcall_result W).
Variable img : image.

(** The machine asks the host to call its function or command number [idx]. *)
Definition asks (c : ctx) (m : mem W) (idx first : N) (pc : nat) (c1 : ctx) (h1 : heap) : Prop :=
  step powf img c m = RStop (SUpcall idx first pc) c1 h1 \/
  step powf img c m = RStop (SUpcallAsync idx first pc) c1 h1.

(** Running, with the host resuming the machine whenever it yields and serving the calls. *)
Inductive runs : ctx -> mem W -> ctx -> mem W -> Prop :=
| runs_refl c (m : mem W) : runs c m c m
| runs_step c (m : mem W) c1 h1 c2 m2 : step powf img c m = RNext c1 h1 ->
    runs c1 (mkMem h1 (m_world m)) c2 m2 -> runs c m c2 m2
| runs_yield c (m : mem W) c1 h1 c2 m2 : step powf img c m = RStop SYield c1 h1 ->
    runs c1 (mkMem h1 (m_world m)) c2 m2 -> runs c m c2 m2
| runs_host c (m : mem W) idx first pc c1 h1 u c2 m2 : asks c m idx first pc c1 h1 ->
    upcall idx first pc img c1 h1 (m_world m) = Some u -> u_failure W u = None ->
    runs (set_regs c1 (u_regs W u)) (mkMem (u_heap W u) (u_world W u)) c2 m2 -> runs c m c2 m2.

(** The machine, or the host for it, fails with an error and leaves the world [w]. *)
Inductive fails (c : ctx) (m : mem W) : vm_error -> W -> Prop :=
| F_machine pc e c1 h1 : step powf img c m = RStop (SException pc e) c1 h1 -> fails c m e (m_world m)
| F_host idx first pc c1 h1 u p msg : asks c m idx first pc c1 h1 ->
    upcall idx first pc img c1 h1 (m_world m) = Some u -> u_failure W u = Some (p, msg) ->
    fails c m (XUpcall msg) (u_world W u).

Definition out_of_memory (e : vm_error) : Prop :=
  e = XHeap \/ e = XUpcall (u "Out of heap space") \/ e = XCallStack.

(** Memory, or the room for calls within calls, runs out.  Or the host is asked for the value of a function without arguments while
    there is no place yet for the register where it goes, which is a crash: see
    [C63_result_register_refuted].  Or a command is given a variable while there are no registers
    at all, which is not known here to be impossible. *)
Definition gives_up (c : ctx) (m : mem W) : Prop :=
  (exists e w, out_of_memory e /\ fails c m e w) \/
  (exists idx first pc c1 h1, asks c m idx first pc c1 h1 /\ length (c_regs c) <= reg_index c first).
End Host.

(** The call at [pc] gives [n] things, as the image tells: the host sees how many. *)
Definition gives_at (img : image) (pc n : nat) : Prop :=
  exists md, nth_error (i_meta img) pc = Some md /\ length (m_args md) = n.

(** Nothing but registers, the program counter and pending yields changed. *)
Definition same_frame (c c' : ctx) : Prop :=
  c_fp c' = c_fp c /\ c_handler c' = c_handler c /\ c_stack c' = c_stack c /\ c_max c' = c_max c.

(** The type of a variable according to the symbol tables. *)
Definition declared (ls : lsyms) (k : ustr) : option etype :=
  match id_get ustr_eqb (ls_locals ls) k with
  | Some (PScalar t, _) => Some t
  | Some (PArray _ _, _) => None
  | None =>
      match id_get ustr_eqb (gs_vars (ls_global ls)) k with
      | Some (PScalar t, _) => Some t
      | _ => None
      end
  end.

(** No name is both shared and local. *)
Definition no_shadowing (ls : lsyms) : Prop :=
  forall k, id_get ustr_eqb (ls_locals ls) k = None \/ id_get ustr_eqb (gs_vars (ls_global ls)) k = None.

(** The symbol tables number their symbols without gaps. *)
Definition tables_ok (ls : lsyms) : Prop :=
  (exists ord, wf (ls_locals ls) ord) /\ (exists ord, wf (gs_vars (ls_global ls)) ord).

(** [b] has all that [a] has: the tables at one point of a program and at a later one. *)
Definition ext (a b : lsyms) : Prop :=
  (exists n, ls_locals b = ls_locals a ++ n) /\ (exists n, gs_vars (ls_global b) = gs_vars (ls_global a) ++ n) /\
  gs_upcalls (ls_global b) = gs_upcalls (ls_global a) /\
  (forall k md, assoc (gs_user (ls_global a)) k = Some md -> assoc (gs_user (ls_global b)) k = Some md).

(** A name that is of a function or command is not of a shared variable or array too, and only one
    function or command has it. *)
Record names_apart (ls : lsyms) : Prop := mkApart {
  ap_user : forall k md, assoc (gs_user (ls_global ls)) k = Some md ->
    md_user md = true /\ assoc (gs_upcalls (ls_global ls)) k = None;
  ap_host : forall k md, assoc (gs_upcalls (ls_global ls)) k = Some md -> md_user md = false;
  ap_shared : forall k md, get_callable (ls_global ls) k = Some md -> id_get ustr_eqb (gs_vars (ls_global ls)) k = None;
  ap_array : forall k md t n i, get_callable (ls_global ls) k = Some md ->
    id_get ustr_eqb (ls_locals ls) k = Some (PArray t n, i) -> False
}.

(** Texts stay where they are. *)
Definition texts_kept (h h' : heap) : Prop :=
  heap_ok h' /\ forall i x, heap_get h i = Some (HText x) -> heap_get h' i = Some (HText x).

(** The content of a register that stands for the content of a variable. *)
Definition represents (cs : list cdatum) (h : heap) (p : proto) (raw : N) (x : content) : Prop :=
  match x, p with
  | Scalar d, PScalar t => stands_for cs h t raw d
  | Elements t dims at_, PArray t' n => t' = t /\ n = length dims /\
      exists i vs, (i < 2 ^ 24)%N /\ raw = ptr_for_heap i /\ heap_get h i = Some (HArray dims vs) /\
        N.of_nat (length vs) = product dims /\
        forall subs, valid_subs dims subs ->
          exists v, nth_error vs (N.to_nat (position dims subs)) = Some v /\ stands_for cs h t v (at_ subs)
  | _, _ => False
  end.

(** The variables that exist by now: [ls] is what the compiler knows at this point of the program,
    and [L] at its end.  Functions may define shared variables before the compiler meets them. *)
Definition by_now (L ls : lsyms) : lsyms := mkLsyms (ls_global L) (ls_locals ls) 0 0.

(** The names of variables, and of shared ones, at the end of the program. *)
Definition is_shared (L : lsyms) (k : ustr) : bool := contains_global (ls_global L) k.
Definition is_variable (L : lsyms) (k : ustr) : bool :=
  match id_get ustr_eqb (ls_locals L) k with Some _ => true | None => is_shared L k end.

(** [v] has the content [x], and the register [r], whose content matters unless it is [skip], the
    register in which the value of an assignment is being computed. *)
Definition seen {W} (L ls : lsyms) (skip : option N) (s : env W) (v : varref) (r : N) (p : proto) (x : content) : Prop :=
  vals s (ascii_upper (vr_name v)) = Some x /\ get_local_or_global (by_now L ls) v = Ok (r, p) /\ skip <> Some r.

(** The machine holds the contents of the variables in the registers that the compiler gave to
    them.  Different arrays are in different places, none of them among the [hidden] places, which
    are of variables out of sight. *)
Record holding {W} (L : lsyms) (hidden : N -> option hdatum) (cs : list cdatum) (ls : lsyms) (skip : option N)
    (c : ctx) (m : mem W) (s : env W) : Prop := mkHolding {
  hd_yield : c_yield c = false;
  hd_fp : 64 <= c_fp c;
  hd_small : (N.of_nat (c_fp c) + 192 * N.of_nat (c_max c - length (c_stack c)) + 256 < 2 ^ 32)%N;
  hd_heap : heap_ok m;
  hd_world : m_world m = world s;
  hd_known : forall v x, vals s (ascii_upper (vr_name v)) = Some x ->
    match get_local_or_global (by_now L ls) v with Err (SeUndefined _ _) => False | _ => True end;
  hd_vars : forall v r p x, seen L ls skip s v r p x -> represents cs m p (get_reg c r) x;
  hd_apart : forall v r p t dims at_ v' r' p' t' dims' at_',
    seen L ls skip s v r p (Elements t dims at_) -> seen L ls skip s v' r' p' (Elements t' dims' at_') ->
    get_reg c r = get_reg c r' -> ascii_upper (vr_name v) = ascii_upper (vr_name v');
  hd_hidden : forall i d, hidden i = Some d -> heap_get m i = Some d;
  hd_own : forall v r p t dims at_ i, seen L ls skip s v r p (Elements t dims at_) ->
    (i < 2 ^ 24)%N -> get_reg c r = ptr_for_heap i -> hidden i = None
}.

(** The consecutive slots from [base] have what a function or command is given. *)
Definition slot_holds {W} (L ls : lsyms) (cs : list cdatum) (c : ctx) (m : mem W) (raw : N) (g : given) : Prop :=
  match g with
  | GValue d => stands_for cs m (cdatum_etype d) raw d
  | GTag t => raw = vararg_make t
  | GRef k t => exists v r p, ascii_upper (vr_name v) = k /\ get_local_or_global (by_now L ls) v = Ok (r, p) /\
      tagged_ref_new r (N.of_nat (c_fp c)) (match p with PArray t _ => t | PScalar t => t end) = Some raw /\
      forall t0, t = Some t0 -> p = PScalar t0
  end.
Definition laid {W} (L ls : lsyms) (cs : list cdatum) (c : ctx) (m : mem W) (base : nat) (gs : list given) : Prop :=
  forall k g, nth_error gs k = Some g -> slot_holds L ls cs c m (slot c (base + k)) g.
Definition referenced (L ls : lsyms) (c : ctx) (gs : list given) (i : nat) : Prop :=
  exists v r p t, In (GRef (ascii_upper (vr_name v)) t) gs /\ get_local_or_global (by_now L ls) v = Ok (r, p) /\
    i = reg_index c r.

(** What the host must see to: its functions and commands do what [calls] says, or run out of
    memory; they change no registers but the one of the result and those of variables that they
    are given; and their texts do not move. *)
Section Obeys.
Context {W : Type}.
Variable upcall : N -> N -> nat -> image -> ctx -> heap -> W -> option (upcall_result W).
Variable img : image.
Variable ups : list ustr.
Variable calls : ustr -> list given -> env W -> res vm_error (option cdatum) -> env W -> Prop.

Definition host_failed (r : upcall_result W) (e : vm_error) : Prop :=
  exists p msg, u_failure W r = Some (p, msg) /\ e = XUpcall msg.

(** A function that leaves its value, of type [t], in [ret]; or a command. *)
Definition served (L : lsyms) (hidden : N -> option hdatum) (ls : lsyms) (skip : option N) (c : ctx) (m : mem W)
    (ret : option (N * etype)) (gs : list given) (r : res vm_error (option cdatum)) (s' : env W)
    (u : upcall_result W) : Prop :=
  let c' := set_regs c (u_regs W u) in
  let m' := mkMem (u_heap W u) (u_world W u) in
  host_failed u (XUpcall (Base.u "Out of heap space")) \/
  match r with
  | Err e => host_failed u e /\ u_world W u = world s'
  | Ok v =>
      u_failure W u = None /\ length (c_regs c) <= length (u_regs W u) /\ texts_kept m m' /\
      holding L hidden (i_constants img) ls skip c' m' s' /\
      (forall i, (forall reg t, ret = Some (reg, t) -> i <> reg_index c reg) -> ~ referenced L ls c gs i ->
         slot c' i = slot c i) /\
      match ret with
      | Some (reg, t) => forall d, v = Some d -> stands_for (i_constants img) m' t (get_reg c' reg) d
      | None => True
      end
  end.

Record host_obeys (mds : list (ustr * callable_md)) (shared : ustr -> bool) : Prop := mkObeys {
  (* Only registers and where the frame starts matter, besides the heap and the world. *)
  ob_scope : forall idx first pc c c' h w, c_regs c = c_regs c' -> c_fp c = c_fp c' ->
    upcall idx first pc img c h w = upcall idx first pc img c' h w;
  (* Functions do not give values to variables of the caller, and commands only to those that they
     are given. *)
  ob_locals : forall k gs s r s' k', calls k gs s r s' -> shared k' = false -> (r = Ok None -> forall t, ~ In (GRef k' t) gs) ->
    vals s k' = None -> vals s' k' = None;
  ob_function : forall L hidden ls skip c m s idx k md t ret pc gs r s',
    nth_error ups (N.to_nat idx) = Some k -> assoc mds k = Some md -> md_return md = Some t -> tables_ok (by_now L ls) ->
    holding L hidden (i_constants img) ls skip c m s -> (64 <= ret < 256)%N ->
    (skip = Some ret \/ c_fp c + id_len (ls_locals ls) <= reg_index c ret) ->
    reg_index c ret < length (c_regs c) -> laid L ls (i_constants img) c m (S (reg_index c ret)) gs ->
    gives_at img pc (length gs) -> calls k gs s r s' ->
    exists u, upcall idx ret pc img c m (m_world m) = Some u /\ served L hidden ls skip c m (Some (ret, t)) gs r s' u;
  ob_command : forall L hidden ls c m s idx k md first pc gs r s',
    nth_error ups (N.to_nat idx) = Some k -> assoc mds k = Some md -> md_return md = None -> tables_ok (by_now L ls) ->
    holding L hidden (i_constants img) ls None c m s -> (64 + N.of_nat (id_len (ls_locals ls)) <= first < 256)%N ->
    laid L ls (i_constants img) c m (reg_index c first) gs -> gives_at img pc (length gs) ->
    ((exists k' t, In (GRef k' t) gs) -> 0 < length (c_regs c)) -> calls k gs s r s' ->
    exists u, upcall idx first pc img c m (m_world m) = Some u /\ served L hidden ls None c m None gs r s' u
}.
End Obeys.
