(** Model of scalar expressions: components/core/wf/expression.{h,cc}, components/core/wf/expressions/*.h,
    utility/ordering.h, number_set.cc, numerical_casts.cc.

    Simplifications.
    - Scalar and boolean expressions (two C++ variants) are one inductive type; a boolean never occurs
      where the C++ type demands a scalar in the terms the code can build.
    - compound_expression_element (elements of custom types and external function results) is left out.
    - The hash of an expression and the iteration order of the unordered maps are parameters [impl],
      as are the libm functions on doubles; the theorems quantify over all of them. *)
From Coq Require Import String Ascii List ZArith Bool.
From Flocq Require Import IEEE754.BinarySingleNaN.
From Verif Require Import Outcome CheckedIntModel RationalModel IntUtilsModel IntFloatModel.
Import ListNotations.
Open Scope Z_scope.
Open Scope outcome_scope.

(** enumerations.h 84-98: number_set, in the order of the enumeration. *)
Inductive number_set := real_positive | real_non_negative | real_set | complex_set | unknown_set.
Definition set_rank (s : number_set) : Z :=
  match s with
  | real_positive => 0 | real_non_negative => 1 | real_set => 2 | complex_set => 3 | unknown_set => 4
  end.
Definition set_eqb (a b : number_set) : bool := set_rank a =? set_rank b.
Definition set_ltb (a b : number_set) : bool := set_rank a <? set_rank b.
Definition set_max (a b : number_set) : number_set := if set_ltb a b then b else a.

(** enumerations.h 67-72: numeric_primitive_type. *)
Inductive prim := prim_boolean | prim_integral | prim_floating.
Definition prim_rank (p : prim) : Z :=
  match p with prim_boolean => 0 | prim_integral => 1 | prim_floating => 2 end.

(** expressions/variable.h: variable, function_argument_variable, unique_variable. *)
Inductive var :=
| VNamed (name : string) (set : number_set)
| VArg (name : string) (index : Z) (type : prim)
| VUnique (index : Z) (set : number_set).

(** enumerations.h 26-48: built_in_function. *)
Inductive fn :=
| Fcos | Fsin | Ftan | Facos | Fasin | Fatan | Fcosh | Fsinh | Ftanh | Facosh | Fasinh | Fatanh
| Flog | Fexp | Fabs | Fsign | Ffloor | Fatan2.

(** enumerations.h 169-211: string_from_built_in_function. *)
Definition fn_name (f : fn) : string :=
  match f with
  | Fcos => "cos" | Fsin => "sin" | Ftan => "tan" | Facos => "acos" | Fasin => "asin" | Fatan => "atan"
  | Fcosh => "cosh" | Fsinh => "sinh" | Ftanh => "tanh" | Facosh => "acosh" | Fasinh => "asinh"
  | Fatanh => "atanh" | Flog => "log" | Fexp => "exp" | Fabs => "abs" | Fsign => "sign"
  | Ffloor => "floor" | Fatan2 => "atan2"
  end.

(** enumerations.h 61-64: symbolic_constant_enum. *)
Inductive symc := Euler | Pi.
Definition symc_rank (c : symc) : Z := match c with Euler => 0 | Pi => 1 end.

(** enumerations.h 51-58: relational_operation. *)
Inductive relop := RLt | RLe | REq.
Definition relop_rank (o : relop) : Z := match o with RLt => 0 | RLe => 1 | REq => 2 end.

(** expression.h 28-52, boolean_expression.h: the storage variants. *)
Inductive expr : Type :=
| EFlt (f : f64)
| EInt (z : Z)
| ERat (r : rat)
| ESym (c : symc)
| EInf
| EImag
| EUndef
| EVar (v : var)
| EMul (l : list expr)
| EAdd (l : list expr)
| EPow (b e : expr)
| EFun (f : fn) (l : list expr)
| ESymFn (name : string) (l : list expr)
| EUneval (a : expr)
| ECond (c a b : expr)
| EIver (c : expr)
| EDeriv (f x : expr) (n : Z)
| ESubst (i t r : expr)
| EStop (a : expr)
| EBool (b : bool)
| ERel (o : relop) (l r : expr).

(** The parameters: hash values (hash_struct of every type), the iteration order of the unordered
    maps, std::pow on doubles and the std::complex<double> functions. *)
Record impl := mk_impl {
  i_hash : expr -> Z;
  i_iter : list (expr * expr) -> list (expr * expr);
  i_iterz : list (Z * (Z * Z)) -> list (Z * (Z * Z));
  i_fpow : f64 -> f64 -> f64;
  i_cfun : fn -> f64 * f64 -> f64 * f64;
  i_atan2 : f64 -> f64 -> f64
}.

(** ** Doubles *)
Definition f64_zero : f64 := f64_of_Z 0.
Definition f64_one : f64 := f64_of_Z 1.
Definition f64_add (a b : f64) : f64 := Bplus mode_NE a b.
Definition f64_div (a b : f64) : f64 := Bdiv mode_NE a b.
(** numeric_expressions.h 316-326, 341-346: < and == of doubles. *)
Definition f64_lt (a b : f64) : bool := Bltb a b.
Definition f64_eq (a b : f64) : bool := Beqb a b.
(** numeric_expressions.h 258-263: static_cast<double>(numerator) / static_cast<double>(denominator). *)
Definition f64_of_rat (r : rat) : f64 := f64_div (f64_of_Z (num r)) (f64_of_Z (den r)).

(** ** Identity: is_identical_struct of every type. Doubles are compared with ==. *)
Definition var_ident (a b : var) : bool :=
  match a, b with
  | VNamed n s, VNamed m t => String.eqb n m && set_eqb s t
  | VArg n i p, VArg m j q => String.eqb n m && (i =? j) && (prim_rank p =? prim_rank q)
  | VUnique i s, VUnique j t => (i =? j) && set_eqb s t
  | _, _ => false
  end.

Definition all2 {A} (f : A -> A -> bool) : list A -> list A -> bool :=
  fix go l m :=
    match l, m with
    | [], [] => true
    | a :: l', b :: m' => f a b && go l' m'
    | _, _ => false
    end.

Fixpoint ident (a b : expr) : bool :=
  match a, b with
  | EFlt f, EFlt g => f64_eq f g
  | EInt x, EInt y => x =? y
  | ERat p, ERat q => rat_eqb p q
  | ESym c, ESym d => symc_rank c =? symc_rank d
  | EInf, EInf | EImag, EImag | EUndef, EUndef => true
  | EVar v, EVar w => var_ident v w
  | EMul l, EMul m | EAdd l, EAdd m => all2 ident l m
  | EPow b e, EPow c f => ident b c && ident e f
  | EFun f l, EFun g m => String.eqb (fn_name f) (fn_name g) && all2 ident l m
  | ESymFn f l, ESymFn g m => String.eqb f g && all2 ident l m
  | EUneval a, EUneval b | EIver a, EIver b | EStop a, EStop b => ident a b
  | ECond c a b, ECond c' a' b' => ident c c' && ident a a' && ident b b'
  | EDeriv f x n, EDeriv g y m => (n =? m) && ident f g && ident x y
  | ESubst i t r, ESubst i' t' r' => ident i i' && ident t t' && ident r r'
  | EBool x, EBool y => Bool.eqb x y
  | ERel o l r, ERel p l' r' => (relop_rank o =? relop_rank p) && ident l l' && ident r r'
  | _, _ => false
  end.

(** ** Ordering *)
(** expression.cc 161-166: position of the type in order_of_types; boolean expressions
    (boolean_expression.cc 36-48) are only compared with each other. *)
Definition type_rank (e : expr) : Z :=
  match e with
  | EFlt _ => 0 | EInt _ => 1 | ERat _ => 2 | ESym _ => 3 | EInf => 4 | EImag => 5
  | EVar (VNamed _ _) => 6 | EVar (VArg _ _ _) => 7 | EVar (VUnique _ _) => 8
  | EMul _ => 9 | EAdd _ => 10 | EPow _ _ => 11 | EFun _ _ => 12 | ESymFn _ _ => 13
  | EUneval _ => 14 | ECond _ _ _ => 15 | EIver _ => 16
  | EDeriv _ _ _ => 18 | ESubst _ _ _ => 19 | EStop _ => 20 | EUndef => 21
  | EBool _ => 22 | ERel _ _ _ => 23
  end.

(** ordering.h 61-68 for doubles. *)
Definition f64_order (a b : f64) : comparison :=
  if f64_lt a b then Lt else if f64_lt b a then Gt else Eq.

(** char is a signed type on the supported targets. *)
Definition char_code (c : ascii) : Z :=
  let n := Z.of_N (N_of_ascii c) in if n <? 128 then n else n - 256.

(** ordering.h 106-112: characters compared by code. *)
Fixpoint string_order (a b : string) : comparison :=
  match a, b with
  | EmptyString, EmptyString => Eq
  | EmptyString, _ => Lt
  | _, EmptyString => Gt
  | String x a', String y b' =>
      match order_by_comparison (char_code x) (char_code y) with
      | Eq => string_order a' b'
      | c => c
      end
  end.

(** ordering.h 145-173: comparison_chain. *)
Definition then_by (m : outcome comparison) (k : outcome comparison) : outcome comparison :=
  let* c := m in match c with Eq => k | _ => Ok c end.

(** ordering.h 72-89: lexicographical_order. *)
Definition lex_order {A} (f : A -> A -> outcome comparison) : list A -> list A -> outcome comparison :=
  fix go l m :=
    match l, m with
    | [], [] => Ok Eq
    | [], _ :: _ => Ok Lt
    | _ :: _, [] => Ok Gt
    | a :: l', b :: m' => then_by (f a b) (go l' m')
    end.

(** variable.h 102-106, 123-128, 148-155: order_struct of the three kinds of variable (name, then set; name, index, type; index, set). *)
Definition var_order (a b : var) : comparison :=
  match a, b with
  | VNamed n s, VNamed m t =>
      match string_order n m with Eq => order_by_comparison (set_rank s) (set_rank t) | c => c end
  | VArg n i p, VArg m j q =>
      match string_order n m with
      | Eq => match order_by_comparison i j with
              | Eq => order_by_comparison (prim_rank p) (prim_rank q)
              | c => c
              end
      | c => c
      end
  | VUnique i s, VUnique j t =>
      match order_by_comparison i j with
      | Eq => order_by_comparison (set_rank s) (set_rank t)
      | c => c
      end
  | _, _ => Eq
  end.

(** expression.cc 159-186 with the order_struct of every type (addition.h 87, multiplication.h 109,
    power.h 78, function_expressions.h 78-89 and 184-193, conditional.h 60-66, casts.h 49-53,
    derivative_expression.h 68-77, substitute_expression.h, stop_derivative.h, unevaluated.h,
    numeric_expressions.h 206, 280, 348, special_constants.h, relational.h 62-71). *)
Fixpoint order (a b : expr) : outcome comparison :=
  match order_by_comparison (type_rank a) (type_rank b) with
  | Lt => Ok Lt
  | Gt => Ok Gt
  | Eq =>
      match a, b with
      | EFlt f, EFlt g => Ok (f64_order f g)
      | EInt x, EInt y => Ok (int_order x y)
      | ERat p, ERat q => rat_order p q
      | ESym c, ESym d => Ok (order_by_comparison (symc_rank c) (symc_rank d))
      | EVar v, EVar w => Ok (var_order v w)
      | EMul l, EMul m | EAdd l, EAdd m => lex_order order l m
      | EPow b e, EPow c f => then_by (order b c) (order e f)
      | EFun f l, EFun g m =>
          then_by (Ok (string_order (fn_name f) (fn_name g))) (lex_order order l m)
      | ESymFn f l, ESymFn g m => then_by (Ok (string_order f g)) (lex_order order l m)
      | EUneval a, EUneval b | EIver a, EIver b | EStop a, EStop b => order a b
      | ECond c a b, ECond c' a' b' => then_by (order c c') (then_by (order a a') (order b b'))
      | EDeriv f x n, EDeriv g y m =>
          then_by (Ok (order_by_comparison n m)) (then_by (order f g) (order x y))
      | ESubst i t r, ESubst i' t' r' => then_by (order i i') (then_by (order t t') (order r r'))
      | EBool x, EBool y => Ok (order_by_comparison (Z.b2z x) (Z.b2z y))
      | ERel o l r, ERel p l' r' =>
          then_by (Ok (order_by_comparison (relop_rank o) (relop_rank p)))
                  (then_by (order l l') (order r r'))
      | _, _ => Ok Eq
      end
  end.

(** addition.cc 116-128, multiplication.cc 90-100: the comparator used for sorting. *)
Definition sort_lt (I : impl) (a b : expr) : outcome bool :=
  if i_hash I a <? i_hash I b then Ok true
  else if i_hash I a >? i_hash I b then Ok false
  else let* c := order a b in Ok (match c with Lt => true | _ => false end).

Fixpoint sort_insert (I : impl) (x : expr) (l : list expr) : outcome (list expr) :=
  match l with
  | [] => Ok [x]
  | y :: t =>
      let* b := sort_lt I y x in
      if b then let* t' := sort_insert I x t in Ok (y :: t') else Ok (x :: l)
  end.

(** std::sort, as insertion sort: equal elements are identical, so the result does not depend
    on the algorithm. *)
Fixpoint sort_terms (I : impl) (l : list expr) : outcome (list expr) :=
  match l with
  | [] => Ok []
  | x :: t => let* t' := sort_terms I t in sort_insert I x t'
  end.

(** multiplication.h 31-44, addition.h: the constructors sort their operands (their assertion of at
    least two operands holds at every call in the model). *)
Definition make_mul (I : impl) (l : list expr) : outcome expr :=
  let* l := sort_terms I l in Ok (EMul l).
Definition make_add (I : impl) (l : list expr) : outcome expr :=
  let* l := sort_terms I l in Ok (EAdd l).

(** ** Constants *)
(** constants.h: is_zero, is_one, ... compare with the integer constants. *)
Definition is_int (z : Z) (e : expr) : bool := match e with EInt y => y =? z | _ => false end.
Definition is_zero := is_int 0.
Definition is_one := is_int 1.
Definition is_negative_one := is_int (-1).
Definition is_undefined (e : expr) : bool := match e with EUndef => true | _ => false end.
Definition is_inf (e : expr) : bool := match e with EInf => true | _ => false end.
Definition is_i (e : expr) : bool := match e with EImag => true | _ => false end.
Definition is_mul (e : expr) : bool := match e with EMul _ => true | _ => false end.
Definition is_pow (e : expr) : bool := match e with EPow _ _ => true | _ => false end.
Definition is_add (e : expr) : bool := match e with EAdd _ => true | _ => false end.
Definition is_integer_type (e : expr) : bool := match e with EInt _ => true | _ => false end.

(** is_type<integer_constant, rational_constant, float_constant>. *)
Definition is_num (e : expr) : bool :=
  match e with EInt _ | ERat _ | EFlt _ => true | _ => false end.

(** expression.cc 22-29: scalar_expr(rational_constant). *)
Definition of_rat (r : rat) : outcome expr :=
  let* i := rat_try_int r in
  match i with Some z => Ok (EInt z) | None => Ok (ERat r) end.

(** expression.cc 41-53: from_float. *)
Definition of_float (f : f64) : expr :=
  if is_nan f then EUndef
  else if is_finite f then EFlt f
  else EInf.

(** addition.h 95-96, multiplication.h: constant_coeff. *)
Inductive coeff := CInt (z : Z) | CRat (r : rat) | CFlt (f : f64) | CUndef | CInf.

Definition coeff_of (e : expr) : option coeff :=
  match e with
  | EInt z => Some (CInt z)
  | ERat r => Some (CRat r)
  | EFlt f => Some (CFlt f)
  | EUndef => Some CUndef
  | EInf => Some CInf
  | _ => None
  end.

Definition expr_of (c : coeff) : outcome expr :=
  match c with
  | CInt z => Ok (EInt z)
  | CRat r => of_rat r
  | CFlt f => Ok (of_float f)
  | CUndef => Ok EUndef
  | CInf => Ok EInf
  end.

Definition coeff_float (c : coeff) : f64 :=
  match c with
  | CInt z => f64_of_Z z
  | CRat r => f64_of_rat r
  | CFlt f => f
  | _ => f64_zero
  end.

(** numeric_expressions.h: is_zero of float_constant is == 0. *)
Definition nonzero_float (f : f64) : coeff := if f64_eq f f64_zero then CInt 0 else CFlt f.

(** addition.cc 20-73: add_numeric_constants (both argument orders). *)
Definition add_num (a b : coeff) : outcome coeff :=
  match a, b with
  | CUndef, _ | _, CUndef => Ok CUndef
  | CInf, CInf => Ok CUndef
  | CInf, _ | _, CInf => Ok CInf
  | CInt x, CInt y => let* z := ck_add x y in Ok (CInt z)
  | CRat p, CRat q => let* r := rat_add p q in Ok (CRat r)
  | CRat p, CInt y => let* r := rat_add p (rat_of_int y) in Ok (CRat r)
  | CInt x, CRat q => let* r := rat_add q (rat_of_int x) in Ok (CRat r)
  | CFlt f, _ => Ok (nonzero_float (f64_add f (coeff_float b)))
  | _, CFlt g => Ok (nonzero_float (f64_add g (coeff_float a)))
  end.

(** integer_constant / rational_constant / float_constant ::is_zero. *)
Definition coeff_is_zero (c : coeff) : bool :=
  match c with
  | CInt z => z =? 0
  | CRat r => num r =? 0
  | CFlt f => f64_eq f f64_zero
  | _ => false
  end.

(** multiplication.cc 17-72: multiply_numeric_constants. *)
Definition mul_num (a b : coeff) : outcome coeff :=
  match a, b with
  | CUndef, _ | _, CUndef => Ok CUndef
  | CInf, c => Ok (if coeff_is_zero c then CUndef else CInf)
  | c, CInf => Ok (if coeff_is_zero c then CUndef else CInf)
  | CInt x, CInt y => let* z := ck_mul x y in Ok (CInt z)
  | CRat p, CRat q => let* r := rat_mul p q in Ok (CRat r)
  | CRat p, CInt y => let* r := rat_mul p (rat_of_int y) in Ok (CRat r)
  | CInt x, CRat q => let* r := rat_mul q (rat_of_int x) in Ok (CRat r)
  | CFlt f, _ => Ok (nonzero_float (f64_mul f (coeff_float b)))
  | _, CFlt g => Ok (nonzero_float (f64_mul g (coeff_float a)))
  end.

(** ** Coefficients of products *)
(** multiplication.cc 74-82: maybe_new_mul. *)
Definition maybe_new_mul (I : impl) (l : list expr) : outcome expr :=
  match l with
  | [] => Ok (EInt 1)
  | [x] => Ok x
  | _ => make_mul I l
  end.

(** multiplication.cc 188-199: has_numeric_coefficient. *)
Definition has_numeric_coefficient (e : expr) : bool :=
  match e with
  | EMul l => existsb is_num l
  | _ => is_num e
  end.

(** multiplication.cc 249-268: split_multiplication. *)
Definition split_multiplication (I : impl) (l : list expr) : outcome (expr * expr) :=
  match filter is_num l with
  | [] => Ok (EInt 1, EMul l)
  | nums =>
      let* c := maybe_new_mul I nums in
      let* m := maybe_new_mul I (filter (fun x => negb (is_num x)) l) in
      Ok (c, m)
  end.

(** multiplication.cc 270-294: as_coeff_and_mul. *)
Definition as_coeff_and_mul (I : impl) (e : expr) : outcome (expr * expr) :=
  match e with
  | EInt _ | ERat _ | EFlt _ => Ok (e, EInt 1)
  | EMul [a; b] =>
      if is_num a && negb (is_num b) then Ok (a, b)
      else if negb (is_num a) && is_num b then Ok (b, a)
      else split_multiplication I [a; b]
  | EMul l => split_multiplication I l
  | _ => Ok (EInt 1, e)
  end.

(** ** Number sets (number_set.cc) *)
(** enumerations.h 141-144: is_real_set. *)
Definition is_real_set (s : number_set) : bool :=
  match s with real_positive | real_non_negative | real_set => true | _ => false end.
(** number_set.cc 12-18. *)
Definition is_non_negative (s : number_set) : bool :=
  match s with real_positive | real_non_negative => true | _ => false end.
Definition contains_zero (s : number_set) : bool :=
  match s with real_positive => false | _ => true end.

(** number_set.cc 20-30. *)
Definition combine_sets_add (a b : number_set) : number_set :=
  let (a, b) := if set_ltb b a then (b, a) else (a, b) in
  match a, b with
  | real_positive, real_non_negative => real_positive
  | _, _ => b
  end.
(** number_set.cc 32-34. *)
Definition combine_sets_mul (a b : number_set) : number_set := set_max a b.

(** number_set.cc 38-51: handle_add_or_mul (its assertion that there is an operand is not modelled). *)
Definition combine_all (f : number_set -> number_set -> number_set) (l : list number_set) : number_set :=
  match l with
  | [] => unknown_set
  | s :: t => fold_left (fun acc x => match acc with unknown_set => acc | _ => f acc x end) t s
  end.

(** number_set.cc 99-169: built-in functions, given the sets of the arguments. *)
Definition fn_set (f : fn) (l : list number_set) : number_set :=
  if existsb (set_eqb unknown_set) l then unknown_set
  else match l with
  | [] => unknown_set
  | s :: _ =>
      match f with
      | Fcos | Fsin => if is_real_set s then real_set else complex_set
      | Ftan | Facos | Fasin | Fatan => unknown_set
      | Fcosh => if is_real_set s then real_positive else unknown_set
      | Fsinh | Ftanh => if is_real_set s then s else unknown_set
      | Facosh | Fasinh | Fatanh => unknown_set
      | Flog => match s with real_positive => real_positive | _ => unknown_set end
      | Fexp => if is_real_set s then real_positive else unknown_set
      | Fabs => match s with real_positive => real_positive | _ => real_non_negative end
      | Fsign => if is_real_set s then s else unknown_set
      | Ffloor => match s with real_positive => real_non_negative | _ => s end
      | Fatan2 => unknown_set
      end
  end.

(** number_set.cc 176-185: handle_numeric. *)
Definition num_set (positive negative : bool) : number_set :=
  if positive then real_positive else if negb negative then real_non_negative else real_set.

(** number_set.cc 208-234: powers. *)
Definition pow_set (base exp : number_set) (exponent : expr) : number_set :=
  match base, exp with
  | complex_set, _ | _, complex_set | unknown_set, _ | _, unknown_set => unknown_set
  | _, _ =>
      if contains_zero base && negb (is_non_negative exp) then unknown_set
      else if is_real_set base then
        if match exponent with EInt n => ck_is_even n | _ => false end
        then (if contains_zero base then real_non_negative else real_positive)
        else if is_non_negative base && is_non_negative exp then base
        else real_set
      else unknown_set
  end.

(** variable.h, number_set.cc 203-206, 262-268 (the assertion that a function argument is not boolean
    is not modelled). *)
Definition var_set (v : var) : number_set :=
  match v with VNamed _ s => s | VArg _ _ _ => real_set | VUnique _ s => s end.

(** number_set.cc 36-272: determine_numeric_set. *)
Fixpoint determine_set (e : expr) : number_set :=
  match e with
  | EAdd l => combine_all combine_sets_add (map determine_set l)
  | EMul l => combine_all combine_sets_mul (map determine_set l)
  | EIver _ => real_non_negative
  | ECond _ a b => set_max (determine_set a) (determine_set b)
  | ESym _ => real_positive
  | EDeriv _ _ _ => unknown_set
  | EFun f l => fn_set f (map determine_set l)
  | EInf => unknown_set
  | EImag => complex_set
  | EInt z => num_set (0 <? z) (z <? 0)
  | EFlt f => num_set (f64_lt f64_zero f) (f64_lt f f64_zero)
  | ERat r => num_set (0 <? num r) (num r <? 0)
  | EVar v => var_set v
  | EPow b x => pow_set (determine_set b) (determine_set x) x
  | EStop a => determine_set a
  | ESymFn _ _ => unknown_set
  | ESubst _ _ _ => unknown_set
  | EUndef => unknown_set
  | EUneval a => determine_set a
  | EBool _ | ERel _ _ _ => real_non_negative
  end.

(** ** Complex doubles (numerical_casts.cc 12-76), with allow_integer_conversion_ = [ints]. *)
Fixpoint complex_cast (I : impl) (ints : bool) (e : expr) : outcome (option (f64 * f64)) :=
  match e with
  | EFlt f => Ok (Some (f, f64_zero))
  | EInt z => Ok (if ints then Some (f64_of_Z z, f64_zero) else None)
  | EImag => Ok (Some (f64_zero, f64_one))
  | EAdd [a; b] =>
      let* x := complex_cast I ints a in
      match x with
      | None => Ok None
      | Some (xr, xi) =>
          let* y := complex_cast I ints b in
          match y with
          | None => Ok None
          | Some (yr, yi) => Ok (Some (f64_add xr yr, f64_add xi yi))
          end
      end
  | EMul [a; b] =>
      let* cm := as_coeff_and_mul I e in
      let (c, m) := cm in
      if is_i m then
        match c with
        | EFlt f => Ok (Some (f64_zero, f))
        | EInt z => Ok (Some (f64_zero, f64_of_Z z))
        | _ => Ok None
        end
      else Ok None
  | _ => Ok None
  end.
