(** What expressions mean: direct evaluation, left to right, on values. *)
From Verif Require Import Base Bytecode_Model Mem_Model Mem_Spec Num_Model Vm_Model Vm_Spec Ids_Model Ids_Proofs Ast_Model
  Syms_Model Codegen_Model Exprs_Model Top_Model.

(** The values of the variables that have one, by name in upper case. *)
Definition env := ustr -> option cdatum.

Section Eval.
Variable powf : N -> N -> N.

Definition int_result (r : res int_error Z) : res vm_error cdatum :=
  match r with Ok z => Ok (CInt z) | Err e => Err (XInt e) end.

(** Two integers. *)
Definition int_op (o : binop) (x y : Z) : res vm_error cdatum :=
  match o with
  | BAdd => int_result (checked_add_integer x y)
  | BSubtract => int_result (checked_sub_integer x y)
  | BMultiply => int_result (checked_mul_integer x y)
  | BDivide => int_result (checked_div_integer x y)
  | BModulo => int_result (checked_mod_integer x y)
  | BPower => int_result (power_integer x y)
  | BAnd => Ok (CInt (Z.land x y))
  | BOr => Ok (CInt (Z.lor x y))
  | BXor => Ok (CInt (Z.lxor x y))
  | BShiftLeft => int_result (checked_shl_integer x y)
  | BShiftRight => int_result (checked_shr_integer x y)
  | BEqual => Ok (CBool (x =? y)%Z)
  | BNotEqual => Ok (CBool (negb (x =? y)%Z))
  | BLess => Ok (CBool (x <? y)%Z)
  | BLessEqual => Ok (CBool (x <=? y)%Z)
  | BGreater => Ok (CBool (y <? x)%Z)
  | BGreaterEqual => Ok (CBool (y <=? x)%Z)
  end.

(** Two doubles; there are no bitwise operators on them. *)
Definition double_op (o : binop) (x y : N) : option cdatum :=
  match o with
  | BAdd => Some (CDouble (f64_add x y))
  | BSubtract => Some (CDouble (f64_sub x y))
  | BMultiply => Some (CDouble (f64_mul x y))
  | BDivide => Some (CDouble (f64_div x y))
  | BModulo => Some (CDouble (f64_rem x y))
  | BPower => Some (CDouble (powf x y))
  | BEqual => Some (CBool (f64_eq x y))
  | BNotEqual => Some (CBool (negb (f64_eq x y)))
  | BLess => Some (CBool (f64_lt x y))
  | BLessEqual => Some (CBool (f64_le x y))
  | BGreater => Some (CBool (f64_lt y x))
  | BGreaterEqual => Some (CBool (f64_le y x))
  | BAnd | BOr | BXor | BShiftLeft | BShiftRight => None
  end.

Definition bool_op (o : binop) (x y : bool) : option cdatum :=
  match o with
  | BAnd => Some (CBool (x && y))
  | BOr => Some (CBool (x || y))
  | BXor => Some (CBool (xorb x y))
  | BEqual => Some (CBool (Bool.eqb x y))
  | BNotEqual => Some (CBool (negb (Bool.eqb x y)))
  | _ => None
  end.

Definition text_op (o : binop) (x y : ustr) : option cdatum :=
  match o with
  | BAdd => Some (CText (x ++ y))
  | BEqual => Some (CBool (ustr_eqb x y))
  | BNotEqual => Some (CBool (negb (ustr_eqb x y)))
  | BLess => Some (CBool (text_lt x y))
  | BLessEqual => Some (CBool (text_le x y))
  | BGreater => Some (CBool (text_lt y x))
  | BGreaterEqual => Some (CBool (text_le y x))
  | _ => None
  end.

(** An operator on two values; an integer meeting a double becomes one.  [None] means the
    operator does not apply to such values. *)
Definition apply2 (o : binop) (a b : cdatum) : option (res vm_error cdatum) :=
  match a, b with
  | CInt x, CInt y => Some (int_op o x y)
  | CDouble x, CDouble y => option_map Ok (double_op o x y)
  | CInt x, CDouble y => option_map Ok (double_op o (f64_of_i32 x) y)
  | CDouble x, CInt y => option_map Ok (double_op o x (f64_of_i32 y))
  | CBool x, CBool y => option_map Ok (bool_op o x y)
  | CText x, CText y => option_map Ok (text_op o x y)
  | _, _ => None
  end.

Definition apply1 (o : unop) (a : cdatum) : option (res vm_error cdatum) :=
  match o, a with
  | UNegate, CInt x => Some (int_result (checked_neg_integer x))
  | UNegate, CDouble x => Some (Ok (CDouble (f64_neg x)))
  | UNot, CInt x => Some (Ok (CInt (Z.lnot x)))
  | UNot, CBool b => Some (Ok (CBool (negb b)))
  | _, _ => None
  end.

(** [None]: a variable without a value, an operator on the wrong kind of values, or a call or
    array element, which this evaluator leaves out. *)
Fixpoint eval (s : env) (e : expr) : option (res vm_error cdatum) :=
  match e with
  | EBoolean b _ => Some (Ok (CBool b))
  | EDouble d _ => Some (Ok (CDouble d))
  | EInteger z _ => Some (Ok (CInt z))
  | EText t _ => Some (Ok (CText t))
  | ESymbol v _ => option_map Ok (s (ascii_upper (vr_name v)))
  | EBinary o l r _ =>
      match eval s l with
      | Some (Ok a) =>
          match eval s r with
          | Some (Ok b) => apply2 o a b
          | other => other
          end
      | other => other
      end
  | EUnary o e _ =>
      match eval s e with
      | Some (Ok a) => apply1 o a
      | other => other
      end
  | ECall _ _ _ => None
  end.

(** Converting a value to the type of what it is stored in. *)
Definition convert (t : etype) (a : cdatum) : option (res vm_error cdatum) :=
  match t, a with
  | TBoolean, CBool _ | TDouble, CDouble _ | TInteger, CInt _ | TText, CText _ => Some (Ok a)
  | TDouble, CInt z => Some (Ok (CDouble (f64_of_i32 z)))
  | TInteger, CDouble d =>
      Some match double_to_integer d with
           | Some z => Ok (CInt z)
           | None => Err (XCast (f64_bits (sf_round (f64_sf d))))
           end
  | _, _ => None
  end.

Definition eval_as (s : env) (t : etype) (e : expr) : option (res vm_error cdatum) :=
  match eval s e with
  | Some (Ok a) => convert t a
  | other => other
  end.
End Eval.

(** Integer literals are 32-bit integers. *)
Fixpoint literals_ok (e : expr) : Prop :=
  match e with
  | EInteger z _ => in_i32 z
  | EBinary _ l r _ => literals_ok l /\ literals_ok r
  | EUnary _ e _ => literals_ok e
  | _ => True
  end.

(** * The machine *)

(** A register content that stands for a value. *)
Definition stands_for (cs : list cdatum) (h : heap) (t : etype) (raw : N) (d : cdatum) : Prop :=
  match d with
  | CBool b => t = TBoolean /\ raw = (if b then 1 else 0)%N
  | CDouble x => t = TDouble /\ raw = x
  | CInt z => t = TInteger /\ in_i32 z /\ as_i32 raw = z
  | CText s => t = TText /\ deref_text raw cs h = Some s
  end.

(** The machine has the values of [s] in the registers that the compiler gave to the
    variables. *)
Definition stores (ls : lsyms) (cs : list cdatum) (c : ctx) (h : heap) (s : env) : Prop :=
  forall v d, s (ascii_upper (vr_name v)) = Some d ->
    match get_local_or_global ls v with
    | Ok (r, PScalar t) => stands_for cs h t (get_reg c r) d
    | Ok (_, PArray _ _) => False
    | Err (SeUndefined _ _) => False
    | Err _ => True
    end.

(** Running instructions one after the other. *)
Inductive steps powf (img : image) : ctx -> heap -> ctx -> heap -> Prop :=
| steps_refl c h : steps powf img c h c h
| steps_step c h c1 h1 c2 h2 :
    step powf img c h = RNext c1 h1 -> steps powf img c1 h1 c2 h2 -> steps powf img c h c2 h2.

(** The machine fails with an error. *)
Definition fails powf (img : image) (c : ctx) (h : heap) (e : vm_error) : Prop :=
  exists pc, step powf img c h = RStop (SException pc e) c h.

(** The code generated between two addresses is in the image, except for placeholders, which may
    have been replaced; and so are its constants. *)
Definition code_in (img : image) (g : codegen) (from to : nat) : Prop :=
  forall p i, from <= p < to -> nth_error (g_code g) p = Some i -> i <> INop -> fetched img p i.
Definition consts_in (img : image) (g : codegen) : Prop :=
  forall ord, wf (g_constants g) ord -> exists rest, i_constants img = ord ++ rest.

(** Nothing but registers and the program counter changed. *)
Definition same_control (c c' : ctx) : Prop :=
  c_fp c' = c_fp c /\ c_handler c' = c_handler c /\ c_stack c' = c_stack c /\
  c_max c' = c_max c /\ c_yield c' = c_yield c.

(** Everything on the heap is still there. *)
Definition heap_kept (h h' : heap) : Prop :=
  heap_ok h' /\ forall i d, heap_get h i = Some d -> heap_get h' i = Some d.

(** What running the code of an expression has done: its value is in [reg] and the machine is at
    [pc'], or it failed with the error of the evaluation; or memory ran out, which can happen to
    any expression that joins texts.  Whatever happened, [quiet] holds between the states. *)
Definition computed powf (img : image) (c : ctx) (h : heap) (pc' : nat) (reg : N) (t : etype)
    (quiet : ctx -> Prop) (r : res vm_error cdatum) : Prop :=
  exists c' h', steps powf img c h c' h' /\ same_control c c' /\ heap_kept h h' /\ quiet c' /\
    (fails powf img c' h' XHeap \/
     match r with
     | Ok d => c_pc c' = pc' /\ stands_for (i_constants img) h' t (get_reg c' reg) d
     | Err e => fails powf img c' h' e
     end).

(** No variable in sight other than [reg] changed. *)
Definition variables_kept (ls : lsyms) (reg : N) (c c' : ctx) : Prop :=
  forall v r p, get_local_or_global ls v = Ok (r, p) -> r <> reg -> get_reg c' r = get_reg c r.

(** The symbols that the symbol table gives to different variables are different. *)
Definition ls_wf (ls : lsyms) : Prop := exists ord, wf (ls_locals ls) ord.

(** The variables of an expression. *)
Fixpoint vars (e : expr) : list varref :=
  match e with
  | ESymbol v _ => [v]
  | EBinary _ l r _ => vars l ++ vars r
  | EUnary _ e _ => vars e
  | _ => []
  end.

(** Every variable of the expression has a value in [s], which the machine holds in the register
    of the variable. *)
Definition holds (ls : lsyms) (cs : list cdatum) (c : ctx) (h : heap) (s : env) (e : expr) : Prop :=
  forall v, In v (vars e) -> exists d r t, s (ascii_upper (vr_name v)) = Some d /\
    get_local_or_global ls v = Ok (r, PScalar t) /\ stands_for cs h t (get_reg c r) d.

(** No part of the expression is a call or an array element. *)
Fixpoint call_free (e : expr) : Prop :=
  match e with
  | EBinary _ l r _ => call_free l /\ call_free r
  | EUnary _ e _ => call_free e
  | ECall _ _ _ => False
  | _ => True
  end.

(** * Types *)

Definition arithmetic (o : binop) : Prop :=
  o = BAdd \/ o = BSubtract \/ o = BMultiply \/ o = BDivide \/ o = BModulo \/ o = BPower.
Definition comparison (o : binop) : Prop :=
  o = BEqual \/ o = BNotEqual \/ o = BLess \/ o = BLessEqual \/ o = BGreater \/ o = BGreaterEqual.
Definition equality (o : binop) : Prop := o = BEqual \/ o = BNotEqual.
Definition logical (o : binop) : Prop := o = BAnd \/ o = BOr \/ o = BXor.
Definition shift (o : binop) : Prop := o = BShiftLeft \/ o = BShiftRight.

Inductive op2_type : binop -> etype -> etype -> etype -> Prop :=
| T_integers o : arithmetic o -> op2_type o TInteger TInteger TInteger
| T_doubles o : arithmetic o -> op2_type o TDouble TDouble TDouble
| T_promote_left o : arithmetic o -> op2_type o TInteger TDouble TDouble
| T_promote_right o : arithmetic o -> op2_type o TDouble TInteger TDouble
| T_concat : op2_type BAdd TText TText TText
| T_compare_integers o : comparison o -> op2_type o TInteger TInteger TBoolean
| T_compare_doubles o : comparison o -> op2_type o TDouble TDouble TBoolean
| T_compare_left o : comparison o -> op2_type o TInteger TDouble TBoolean
| T_compare_right o : comparison o -> op2_type o TDouble TInteger TBoolean
| T_compare_texts o : comparison o -> op2_type o TText TText TBoolean
| T_compare_booleans o : equality o -> op2_type o TBoolean TBoolean TBoolean
| T_logical o : logical o -> op2_type o TBoolean TBoolean TBoolean
| T_bitwise o : logical o -> op2_type o TInteger TInteger TInteger
| T_shift o : shift o -> op2_type o TInteger TInteger TInteger.

Inductive op1_type : unop -> etype -> etype -> Prop :=
| T_negate_integer : op1_type UNegate TInteger TInteger
| T_negate_double : op1_type UNegate TDouble TDouble
| T_not_boolean : op1_type UNot TBoolean TBoolean
| T_not_integer : op1_type UNot TInteger TInteger.

(** The type of a name without arguments: a scalar variable, or else a function. *)
Definition name_type (ls : lsyms) (v : varref) (t : etype) : Prop :=
  match get_local_or_global ls v with
  | Ok (_, PScalar t') => t = t'
  | Err (SeUndefined _ _) =>
      exists md, get_callable (ls_global ls) (symkey (vr_name v)) = Some md /\ md_return md = Some t
  | _ => False
  end.

(** The type of a name with arguments: a function, or else an array. *)
Definition applied_type (ls : lsyms) (v : varref) (t : etype) : Prop :=
  match get_callable (ls_global ls) (symkey (vr_name v)) with
  | Some md => md_return md = Some t
  | None => exists r n, get_local_or_global ls v = Ok (r, PArray t n)
  end.

Inductive has_type (ls : lsyms) : expr -> etype -> Prop :=
| T_boolean b p : has_type ls (EBoolean b p) TBoolean
| T_double d p : has_type ls (EDouble d p) TDouble
| T_integer z p : has_type ls (EInteger z p) TInteger
| T_text s p : has_type ls (EText s p) TText
| T_symbol v p t : name_type ls v t -> has_type ls (ESymbol v p) t
| T_binary o l r p tl tr t : has_type ls l tl -> has_type ls r tr -> op2_type o tl tr t ->
    has_type ls (EBinary o l r p) t
| T_unary o e p te t : has_type ls e te -> op1_type o te t -> has_type ls (EUnary o e p) t
| T_call v p args t : applied_type ls v t -> has_type ls (ECall v p args) t.

(** Every name is a scalar variable of the type that it is annotated with, if it is. *)
Definition names_defined (ls : lsyms) (e : expr) : Prop :=
  forall v, In v (vars e) -> exists r t, get_local_or_global ls v = Ok (r, PScalar t).

(** Out of machine resources. *)
Definition resource_error (e : cerror) : Prop :=
  match e with CeOutOfConstants _ | CeOutOfRegisters _ _ => True | _ => False end.

(** ** Whole programs *)

(** The way a program ends, resumed after every yield; [None] when it crashes or needs more than
    [fuel] instructions. *)
Fixpoint run_program powf (fuel : nat) (img : image) (c : ctx) (h : heap) : option stop :=
  match fuel with
  | O => None
  | S n =>
      match step powf img c h with
      | RNext c' h' | RStop SYield c' h' => run_program powf n img c' h'
      | RStop s _ _ => Some s
      | RPanic => None
      end
  end.

(** The program compiles, and ends with this exit code on a new machine. *)
Definition program_exits (p : list stmt) (code : N) : Prop :=
  exists img, compile_new [] [] (p, None) = (Compiled, img) /\
    forall powf, exists fuel,
      run_program powf fuel (runnable img) (ctx_new 100) (heap_new 10000) = Some (SEnd code).
