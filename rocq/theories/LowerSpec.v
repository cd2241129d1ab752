(** What the operations mean on real numbers, and what is asked of the lowered program. *)
From Coq Require Import String List Arith ZArith Reals Bool Lra.
From Verif Require Import Outcome RationalModel ExprModel BuildModel FuncModel DerivModel ExprSpec OrderSpec DerivSpec ValProofs IrModel IrSpec LowerModel.
Import ListNotations.
Open Scope nat_scope.

(** ** Types *)
(** The type of a value as its operation and operands determine it. *)
Definition lower_ft (o : op) (l : list vtype) : vtype :=
  match o with
  | OLoad (LInt _) => TScalar NInt
  | OLoad (LBool _) => TScalar NBool
  | OLoad (LArg a _) => TScalar (match a mod 3 with 0 => NBool | 1 => NInt | _ => NFloat end)
  | OLoad _ => TScalar NFloat
  | OCast t => TScalar t
  | OCompare _ => TScalar NBool
  | OCallStd F_abs => hd TVoid l
  | OCallStd F_floor | OCallStd F_signum => TScalar NInt
  | OCallStd _ | ODiv => TScalar NFloat
  | OCond => nth 1 l TVoid
  | OSave _ _ => TVoid
  | _ => hd TVoid l
  end.
Definition lower_typing : typing.
Proof.
  refine {| ft := lower_ft |}; try reflexivity. intros o t l H; destruct o; try discriminate; reflexivity.
Defined.

(** The operands of sums, products, quotients and comparisons have one numeric type, quotients and powers are of
    floats, and the two alternatives of a select, which depends on a boolean, have
    the type of the result. *)
Definition one_type (g : graph) (v : name) : Prop :=
  let tys := map (ty_of g) (args g v) in
  match op_of g v with
  | OAdd | OMul => exists t, ty_of g v = TScalar t /\ t <> NBool /\ Forall (fun u => u = TScalar t) tys
  | OCompare _ => exists t, tys = [TScalar t; TScalar t]
  | ODiv => tys = [TScalar NFloat; TScalar NFloat]
  | OCond => exists t, ty_of g v = TScalar t /\ tys = [TScalar NBool; TScalar t; TScalar t]
  | OCallStd F_sqrt => tys = [TScalar NFloat]
  | OCallStd F_powi => tys = [TScalar NFloat; TScalar NInt]
  | OCallStd F_powf => tys = [TScalar NFloat; TScalar NFloat]
  | OCast t => exists u, tys = [TScalar u] /\ numeric_rank u <= numeric_rank t
  | _ => True
  end.

(** The largest type. *)
Definition is_max (t : numeric) (l : list numeric) : Prop :=
  In t l /\ forall u, In u l -> numeric_rank u <= numeric_rank t.

(** ** Values *)
Open Scope R_scope.

(** Conversion to an integer drops the fraction. *)
Definition trunc_R (x : R) : R := if Rle_dec 0 x then IZR (Int_part x) else - IZR (Int_part (- x)).

Definition std_value (f : std_fn) (l : list R) : val :=
  match f with
  | F_cos => vfun Fcos (map Rv l) | F_sin => vfun Fsin (map Rv l) | F_tan => vfun Ftan (map Rv l)
  | F_acos => vfun Facos (map Rv l) | F_asin => vfun Fasin (map Rv l) | F_atan => vfun Fatan (map Rv l)
  | F_cosh => vfun Fcosh (map Rv l) | F_sinh => vfun Fsinh (map Rv l) | F_tanh => vfun Ftanh (map Rv l)
  | F_acosh => vfun Facosh (map Rv l) | F_asinh => vfun Fasinh (map Rv l) | F_atanh => vfun Fatanh (map Rv l)
  | F_log => vfun Flog (map Rv l) | F_exp => vfun Fexp (map Rv l)
  | F_abs => vfun Fabs (map Rv l) | F_signum => vfun Fsign (map Rv l) | F_floor => vfun Ffloor (map Rv l)
  | F_atan2 => vfun Fatan2 (map Rv l)
  | F_sqrt => match l with [x] => if Rle_dec 0 x then Rv (sqrt x) else Top | _ => Top end
  | F_powi | F_powf => match l with [x; y] => vpow (Rv x) (Rv y) | _ => Top end
  end.

(** The machine that executes the operations, on real numbers; conditions are 0 or 1.  [inp] gives the inputs.  Where an
    operation has no real value (poles, divisions by zero, logarithms of negative numbers, ...) the result is whatever
    [junk] says.  Rounding and overflow are not part of this semantics. *)
Section Machine.
Variable inp : load_src -> R.
Variable junk : op -> list R -> R.

Definition or_junk (o : op) (l : list R) (v : val) : R := match v with Rv x => x | _ => junk o l end.
Definition load_value (l : load_src) : R :=
  match l with
  | LInt z => IZR z
  | LRat a b => IZR a / IZR b
  | LSym SEuler => exp 1
  | LSym SPi => PI
  | LBool b => if b then 1 else 0
  | _ => inp l
  end.
Definition real_sem (o : op) (l : list R) : R :=
  match o, l with
  | OAdd, _ => fold_right Rplus 0 l
  | OMul, _ => fold_right Rmult 1 l
  | ONeg, [x] => - x
  | OCopy, [x] | OSave _ _, [x] | OCast NFloat, [x] => x
  | OCast NInt, [x] => trunc_R x
  | ODiv, [x; y] => if Req_EM_T y 0 then junk o l else x / y
  | OCompare IrModel.RLt, [x; y] => if Rlt_dec x y then 1 else 0
  | OCompare IrModel.RLe, [x; y] => if Rle_dec x y then 1 else 0
  | OCompare IrModel.REq, [x; y] => if Req_EM_T x y then 1 else 0
  | OCond, [c; a; b] => if Req_EM_T c 0 then b else a
  | OCallStd f, _ => or_junk o l (std_value f l)
  | OLoad src, [] => load_value src
  | _, _ => junk o l
  end.

Definition real_algebra : algebra.
Proof.
  refine {| D := R; d0 := 0; d1 := 1; dadd := Rplus; dmul := Rmult; dsub := Rminus; dopp := Ropp; sem := real_sem |};
    try reflexivity.
  - split; intros; ring.
  - intros [] H; [congruence| |reflexivity]. cbn. unfold trunc_R. destruct (Rle_dec 0 1); [|exfalso; lra].
    now rewrite (ValProofs.Int_part_IZR 1).
  - intros [] H; [congruence| |reflexivity]. cbn. unfold trunc_R. destruct (Rle_dec 0 (- (1))); [exfalso; lra|].
    now rewrite Ropp_involutive, (ValProofs.Int_part_IZR 1).
Defined.
End Machine.

(** The inputs are the values of the variables, and booleans are 0 or 1. *)
Definition inputs_agree (K : ids) (s : ExprSpec.env) (inp : load_src -> R) : Prop :=
  (forall a set, inp (LVar (id_var K (VNamed a set))) = ev s (VNamed a set)) /\
  (forall a i p, inp (LArg (3 * id_arg K a + numeric_rank (of_prim p)) (id_elem K i)) = ev s (VArg a i p)) /\
  (forall a i, ev s (VArg a i prim_boolean) = 0 \/ ev s (VArg a i prim_boolean) = 1) /\
  (forall a k, (a mod 3 = 0)%nat -> inp (LArg a k) = 0 \/ inp (LArg a k) = 1).

(** The expressions met on the way: parts, the negated coefficient of a product, and b^(-x) for a power b^x whose
    exponent has a negative coefficient. *)
Definition negative_exponent (I : impl) (x : expr) : Prop :=
  exists c m, as_coeff_and_mul I x = Ok (c, m) /\ is_negative_number c = true.
Inductive meets (I : impl) (n : nat) : expr -> expr -> Prop :=
| meets_refl e : meets I n e e
| meets_child e c d : meets I n e c -> In d (children c) -> meets I n e d
| meets_negated e l a a' : meets I n e (EMul l) -> In a l -> is_num a = true -> e_neg I n a = Ok a' -> meets I n e a'
| meets_reciprocal e b x nx r : meets I n e (EPow b x) -> negative_exponent I x ->
    e_neg I n x = Ok nx -> e_pow I n b nx = Ok r -> meets I n e r.

(** Expressions without doubles. *)
Fixpoint float_free (e : expr) : bool :=
  match e with
  | EFlt _ => false
  | EMul l | EAdd l | EFun _ l | ESymFn _ l => forallb float_free l
  | EPow a b | EDeriv a b _ | ERel _ a b => float_free a && float_free b
  | EUneval a | EIver a | EStop a => float_free a
  | ECond a b c | ESubst a b c => float_free a && float_free b && float_free c
  | _ => true
  end.

(** No power with a symbolic negative exponent has the base zero (its reciprocal would divide by the pole), and no doubles
    (which stand for themselves up to rounding) turn up. *)
Definition lowerable (I : impl) (n : nat) (s : ExprSpec.env) (e : expr) : Prop :=
  forall d, meets I n e d ->
    float_free d = true /\
    forall b x, d = EPow b x -> negative_exponent I x -> is_num x = false -> eval s b <> Rv 0.

(** ** Sorting *)
(** Operands of products that are not numbers do not become numbers (nor zero) when they are rebuilt by [tr]. *)
Fixpoint factors_fine (tr : expr -> outcome expr) (e : expr) : Prop :=
  match e with
  | EMul l => all_of (factors_fine tr) l /\ all_of (fun a => forall d, tr a = Ok d -> is_num d = is_num a /\ is_zero d = false) l
  | EAdd l | EFun _ l | ESymFn _ l => all_of (factors_fine tr) l
  | EPow a b | EDeriv a b _ | ERel _ a b => factors_fine tr a /\ factors_fine tr b
  | EUneval a | EStop a | EIver a => factors_fine tr a
  | ECond a b c | ESubst a b c => factors_fine tr a /\ factors_fine tr b /\ factors_fine tr c
  | _ => True
  end.

(** ** Multiplications *)
Section Monoid.
Context {M : Type} (one : M) (mul : M -> M -> M).
Fixpoint mpow (x : M) (k : nat) : M := match k with O => one | S k => mul x (mpow x k) end.
End Monoid.
(** The number of ones among the binary digits. *)
Fixpoint ones (p : positive) : nat := match p with xH => 1 | xO q => ones q | xI q => S (ones q) end.
