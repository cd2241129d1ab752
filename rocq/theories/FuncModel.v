(** Model of the built-in functions and of the remaining simplifying constructors:
    components/core/wf/functions.cc, expressions/relational.cc, conditional.cc, derivative_expression.cc,
    substitute_expression.cc, stop_derivative.cc, unevaluated.cc, utility_visitors.cc (is_negative_number).

    [n] is the recursion depth given to the constructors of BuildModel; functions that call themselves or
    each other (cos / cosh, sin(-x), ...) take a second depth.  The special handling of acos for real
    arguments (functions.cc 243-255, a compiler workaround) is part of the parameter [i_cfun]. *)
From Coq Require Import String List ZArith Bool.
From Flocq Require Import IEEE754.BinarySingleNaN.
From Verif Require Import Outcome CheckedIntModel RationalModel IntUtilsModel IntFloatModel ExprModel BuildModel.
Import ListNotations.
Open Scope Z_scope.
Open Scope outcome_scope.

(** constants.h 36. *)
Definition is_pi (e : expr) : bool := match e with ESym Pi => true | _ => false end.

(** utility_visitors.cc 31-51: is_negative_number. *)
Fixpoint is_negative_number (e : expr) : bool :=
  match e with
  | EInt z => z <? 0
  | EFlt f => f64_lt f f64_zero
  | ERat q => num q <? 0
  | EMul l => Nat.odd (List.length (filter is_negative_number l))
  | _ => false
  end.

(** functions.cc 89-96: try_cast_to_rational. *)
Definition try_rational (e : expr) : option rat :=
  match e with
  | ERat q => Some q
  | EInt z => Some (rat_of_int z)
  | _ => None
  end.

(** special_constants.h 33-41: double_from_symbolic_constant (M_E and M_PI). *)
Definition symc_f64 (c : symc) : f64 :=
  match c with
  | Euler => binary_normalize 53 1024 _ _ mode_NE 6121026514868073 (-51) false
  | Pi => binary_normalize 53 1024 _ _ mode_NE 7074237752028440 (-51) false
  end.

Section Fn.
Variable I : impl.
Variable n : nat.

(** functions.cc 33-53: log. *)
Definition log_fn (e : expr) : outcome expr :=
  if ident e (ESym Euler) then Ok (EInt 1)
  else if is_one e then Ok (EInt 0)
  else if is_zero e then Ok EUndef
  else if is_inf e || is_undefined e then Ok EUndef
  else
    let* f := operate_on_float I (ops_n I n) Flog e in
    match f with
    | Some v => Ok v
    | None => Ok (EFun Flog [e])
    end.

(** functions.cc 74-87: maybe_swap_hyperbolic_trig, the condition and the argument of the replacement. *)
Definition has_imag (e : expr) : bool :=
  match e with
  | EImag => true
  | EMul l => existsb is_i l
  | _ => false
  end.
Definition divide_imag (e : expr) : outcome expr :=
  match e with
  | EImag => Ok (EInt 1)
  | _ => e_div I n e EImag
  end.

(** The replacements passed to maybe_swap_hyperbolic_trig. *)
Definition hyp_swap (f : fn) : fn :=
  match f with
  | Fcos => Fcosh | Fsin => Fsinh | Ftan => Ftanh
  | Fcosh => Fcos | Fsinh => Fsin | Ftanh => Ftan
  | _ => f
  end.

(** The float evaluation followed by the checks for infinity and undefined, and the last statement of
    cos, sin, tan, cosh, sinh, tanh, acosh, asinh and atanh. [inv] is the inverse function that is
    cancelled (functions.cc 322-326, 350-354, 377-381). *)
Definition finish (f : fn) (inv : option fn) (e : expr) : outcome expr :=
  let* v := operate_on_float I (ops_n I n) f e in
  match v with
  | Some v => Ok v
  | None =>
      if is_inf e || is_undefined e then Ok EUndef
      else match inv, e with
      | Some g, EFun h (x :: _) => if String.eqb (fn_name g) (fn_name h) then Ok x else Ok (EFun f [e])
      | _, _ => Ok (EFun f [e])
      end
  end.

(** functions.cc 104-118 and the same block of sin and tan: the rational factor of pi. *)
Definition pi_factor (cm : expr * expr) : option rat :=
  if is_pi (snd cm) then try_rational (fst cm) else None.

(** scalar_expr(r) * constants::pi. *)
Definition times_pi (q : rat) : outcome expr :=
  let* e := of_rat q in e_mul2 I n e (ESym Pi).

Definition rat_is_zero (q : rat) : bool := num q =? 0.
Definition rat_is_one (q : rat) : bool := num q =? den q.
Definition is_half (q : rat) : bool := rat_eqb q (mk_rat 1 2).
Definition is_neg_half (q : rat) : bool := rat_eqb q (mk_rat (-1) 2).

(** functions.cc 178-186: convert_to_tan_range. *)
Definition convert_to_tan_range (q : rat) : outcome rat :=
  let* one := rat_make 1 1 in
  let* half := rat_make 1 2 in
  let* g := rat_gt q half in
  if g then rat_sub q one
  else
    let* nhalf := rat_make (-1) 2 in
    let* l := rat_lt q nhalf in
    if l then rat_add one q else Ok q.

(** functions.cc 99-138: cos after the hyperbolic swap; [self] is cos. *)
Definition cos_body (self : expr -> outcome expr) (e : expr) : outcome expr :=
  let* cm := as_coeff_and_mul I e in
  match pi_factor cm with
  | Some q =>
      let* m := mod_pi_rational q in
      if rat_is_zero m then Ok (EInt 1)
      else if rat_is_one m then Ok (EInt (-1))
      else if is_half m || is_neg_half m then Ok (EInt 0)
      else let* x := times_pi m in Ok (EFun Fcos [x])
  | None =>
      if negb (is_pi (snd cm)) && is_zero (fst cm) then Ok (EInt 1)
      else if is_negative_number e then let* m := e_neg I n e in self m
      else finish Fcos None e
  end.

(** functions.cc 140-176: sin. *)
Definition sin_body (self : expr -> outcome expr) (e : expr) : outcome expr :=
  let* cm := as_coeff_and_mul I e in
  match pi_factor cm with
  | Some q =>
      let* m := mod_pi_rational q in
      if rat_is_zero m || rat_is_one m then Ok (EInt 0)
      else if is_half m then Ok (EInt 1)
      else if is_neg_half m then Ok (EInt (-1))
      else let* x := times_pi m in Ok (EFun Fsin [x])
  | None =>
      if negb (is_pi (snd cm)) && is_zero e then Ok (EInt 0)
      else if is_negative_number e then
        let* m := e_neg I n e in let* v := self m in e_neg I n v
      else finish Fsin None e
  end.

(** functions.cc 193-230: tan. *)
Definition tan_body (self : expr -> outcome expr) (e : expr) : outcome expr :=
  let* cm := as_coeff_and_mul I e in
  match pi_factor cm with
  | Some q =>
      let* m0 := mod_pi_rational q in
      let* m := convert_to_tan_range m0 in
      if rat_is_zero m then Ok (EInt 0)
      else if is_half m || is_neg_half m then Ok EInf
      else let* x := times_pi m in Ok (EFun Ftan [x])
  | None =>
      if negb (is_pi (snd cm)) && is_zero e then Ok (EInt 0)
      else if is_negative_number e then
        let* m := e_neg I n e in let* v := self m in e_neg I n v
      else finish Ftan None e
  end.

(** functions.cc 304-329: cosh. *)
Definition cosh_body (self : expr -> outcome expr) (e : expr) : outcome expr :=
  if is_zero e then Ok (EInt 1)
  else if is_negative_number e then let* m := e_neg I n e in self m
  else finish Fcosh (Some Facosh) e.

(** functions.cc 331-357: sinh. *)
Definition sinh_body (self : expr -> outcome expr) (e : expr) : outcome expr :=
  if is_zero e then Ok (EInt 0)
  else if is_negative_number e then
    let* m := e_neg I n e in let* v := self m in e_neg I n v
  else finish Fsinh (Some Fasinh) e.

(** functions.cc 359-385: tanh. *)
Definition tanh_body (self : expr -> outcome expr) (e : expr) : outcome expr :=
  if is_zero e then Ok (EInt 0)
  else if is_negative_number e then
    let* m := e_neg I n e in let* v := self m in e_neg I n v
  else finish Ftanh (Some Fatanh) e.

(** cos, sin, tan, cosh, sinh, tanh, with recursion depth [k]. *)
Fixpoint trig (k : nat) (f : fn) (e : expr) : outcome expr :=
  match k with
  | O => NoFuel
  | S k =>
      if has_imag e then
        let* x := divide_imag e in
        let* y := trig k (hyp_swap f) x in
        match f with
        | Fcos | Fcosh => Ok y
        | _ => e_mul2 I n EImag y
        end
      else match f with
      | Fcos => cos_body (trig k Fcos) e
      | Fsin => sin_body (trig k Fsin) e
      | Ftan => tan_body (trig k Ftan) e
      | Fcosh => cosh_body (trig k Fcosh) e
      | Fsinh => sinh_body (trig k Fsinh) e
      | Ftanh => tanh_body (trig k Ftanh) e
      | _ => Throws
      end
  end.

(** functions.cc 188-191 and 280-283: pi/2 and pi/4. *)
Definition pi_over (d : Z) : outcome expr := e_div I n (ESym Pi) (EInt d).

(** The end of acos, asin and atan: infinity and undefined first, then the float evaluation. *)
Definition finish_inverse (f : fn) (e : expr) : outcome expr :=
  if is_undefined e || is_inf e then Ok EUndef
  else
    let* v := operate_on_float I (ops_n I n) f e in
    match v with
    | Some v => Ok v
    | None => Ok (EFun f [e])
    end.

(** functions.cc 233-259: acos. *)
Definition acos_fn (e : expr) : outcome expr :=
  if is_zero e then pi_over 2
  else if is_one e then Ok (EInt 0)
  else if is_negative_one e then Ok (ESym Pi)
  else finish_inverse Facos e.

(** functions.cc 261-278: asin; 285-302: atan. [one] is the denominator of asin(1), atan(1). *)
Fixpoint odd_inverse (f : fn) (one : Z) (k : nat) (e : expr) : outcome expr :=
  match k with
  | O => NoFuel
  | S k =>
      if is_zero e then Ok (EInt 0)
      else if is_one e then pi_over one
      else if is_negative_one e then let* p := pi_over one in e_neg I n p
      else if is_negative_number e then
        let* m := e_neg I n e in let* v := odd_inverse f one k m in e_neg I n v
      else finish_inverse f e
  end.
Definition asin_fn : nat -> expr -> outcome expr := odd_inverse Fasin 2.
Definition atan_fn : nat -> expr -> outcome expr := odd_inverse Fatan 4.

(** functions.cc 388-401: acosh. *)
Definition acosh_fn (e : expr) : outcome expr :=
  if is_zero e then let* p := e_mul2 I n EImag (ESym Pi) in e_div I n p (EInt 2)
  else finish Facosh None e.
(** functions.cc 403-429: asinh and atanh. *)
Definition asinh_fn (e : expr) : outcome expr :=
  if is_zero e then Ok (EInt 0) else finish Fasinh None e.
Definition atanh_fn (e : expr) : outcome expr :=
  if is_zero e then Ok (EInt 0) else finish Fatanh None e.

(** functions.cc 441-463: atan2 of two integers. *)
Definition atan2_int (y x : Z) : outcome (option expr) :=
  if (y =? 0) && (x =? 1) then Ok (Some (EInt 0))
  else if (y =? 1) && (x =? 0) then let* p := pi_over 2 in Ok (Some p)
  else if (y =? 0) && (x =? -1) then Ok (Some (ESym Pi))
  else if (y =? -1) && (x =? 0) then
    let* p := pi_over 2 in let* m := e_neg I n p in Ok (Some m)
  else
    let* ay := ck_abs y in
    let* ax := ck_abs x in
    if (ay =? ax) && negb (x =? 0) then
      let* q :=
        (if y <? 0 then
           if x <? 0 then
             let* t := e_mul2 I n (EInt (-3)) (ESym Pi) in e_div I n t (EInt 4)
           else let* t := e_neg I n (ESym Pi) in e_div I n t (EInt 4)
         else
           if x <? 0 then let* t := e_mul2 I n (EInt 3) (ESym Pi) in e_div I n t (EInt 4)
           else pi_over 4) in
      Ok (Some q)
    else Ok None.

(** functions.cc 432-478: atan2. *)
Definition atan2_fn (y x : expr) : outcome expr :=
  let* v :=
    match y, x with
    | EFlt a, EFlt b => Ok (Some (of_float (i_atan2 I a b)))
    | EInt a, EInt b => atan2_int a b
    | EInf, _ | _, EInf | EUndef, _ | _, EUndef => Ok (Some EUndef)
    | _, _ => Ok None
    end in
  match v with
  | Some v => Ok v
  | None => Ok (EFun Fatan2 [y; x])
  end.

(** functions.cc 480-483: sqrt. *)
Definition sqrt_fn (e : expr) : outcome expr :=
  let* h := e_div I n (EInt 1) (EInt 2) in e_pow I n e h.

(** functions.cc 485-524: abs. *)
Definition abs_fn (e : expr) : outcome expr :=
  match e with
  | EFun Fabs _ => Ok e
  | _ =>
      match try_rational e with
      | Some q =>
          if 0 <=? num q then (if 0 <? den q then Ok e else Throws)
          else let* m := ck_neg (num q) in let* q' := rat_make m (den q) in of_rat q'
      | None =>
          let* c := complex_cast I false e in
          match c with
          | Some z => Ok (of_float (fst (i_cfun I Fabs z)))
          | None =>
              match e with
              | ESym c =>
                  let* o := compare_int_float 0 (symc_f64 c) in
                  match o with
                  | None => Throws
                  | Some Gt => Ok (EFun Fabs [e])
                  | Some _ => Ok e
                  end
              | _ => if is_inf e || is_undefined e then Ok EUndef else Ok (EFun Fabs [e])
              end
          end
      end
  end.

(** functions.cc 530-534: sign. *)
Definition sign_Z (z : Z) : Z := Z.b2z (0 <? z) - Z.b2z (z <? 0).
Definition sign_f (f : f64) : Z := Z.b2z (f64_lt f64_zero f) - Z.b2z (f64_lt f f64_zero).

(** functions.cc 529-582: signum. *)
Definition signum_fn (e : expr) : outcome expr :=
  match e with
  | EInt z => Ok (EInt (sign_Z z))
  | ERat q => Ok (EInt (sign_Z (num q)))
  | EFlt f => if is_nan f then Ok (EFun Fsign [e]) else Ok (EInt (sign_f f))
  | ESym c => Ok (EInt (sign_f (symc_f64 c)))
  | EFun Fsign _ => Ok e
  | EUndef => Ok EUndef
  | _ => Ok (EFun Fsign [e])
  end.

(** static_cast<std::int64_t>(std::floor(f)): undefined when the result does not fit. *)
Definition f64_floor (f : f64) : outcome Z :=
  match f with
  | B754_zero _ => Ok 0
  | B754_finite s m x _ =>
      let z := if s then Zneg m else Zpos m in
      mach (if 0 <=? x then z * 2 ^ x else z / 2 ^ (- x))
  | _ => UB
  end.

(** functions.cc 584-641: floor. *)
Definition floor_fn (e : expr) : outcome expr :=
  match e with
  | EInt _ => Ok e
  | ERat q =>
      let* nf := rat_normalized q in
      let (ip, _) := nf in
      if num q <? 0 then let* z := ck_sub ip 1 in Ok (EInt z) else Ok (EInt ip)
  | EFlt f => if is_nan f then Ok (EFun Ffloor [e]) else let* z := f64_floor f in Ok (EInt z)
  | EFun Ffloor _ => Ok e
  | ESym c => let* z := f64_floor (symc_f64 c) in Ok (EInt z)
  | EInf => Ok EInf
  | EUndef => Ok EUndef
  | _ => Ok (EFun Ffloor [e])
  end.

(** ** Comparisons and conditionals *)
(** relational.cc 13-60: CompareNumerics; [None] where it has no overload. *)
Definition less_int (i : Z) (f : f64) (c : comparison) : outcome bool :=
  let* o := compare_int_float i f in
  match o with
  | None => Throws
  | Some d => Ok (match d, c with Lt, Lt => true | Gt, Gt => true | _, _ => false end)
  end.

Definition less (a b : expr) : option (outcome bool) :=
  match a, b with
  | EInt x, EInt y => Some (rat_lt (rat_of_int x) (rat_of_int y))
  | EInt x, ERat q => Some (rat_lt (rat_of_int x) q)
  | ERat p, EInt y => Some (rat_lt p (rat_of_int y))
  | ERat p, ERat q => Some (rat_lt p q)
  | EInt x, ESym c => Some (less_int x (symc_f64 c) Lt)
  | ESym c, EInt y => Some (less_int y (symc_f64 c) Gt)
  | ESym c, ESym d => Some (Ok (f64_lt (symc_f64 c) (symc_f64 d)))
  | EFlt f, EFlt g => Some (Ok (f64_lt f g))
  | EInt x, EFlt g => Some (less_int x g Lt)
  | EFlt f, EInt y => Some (less_int y f Gt)
  | _, _ => None
  end.

(** relational.cc 75-99: RelationalSimplification; [None] is unknown. *)
Definition rel_simplify (o : relop) (a b : expr) : outcome (option bool) :=
  match less a b, less b a with
  | Some m, Some m' =>
      let* ab := m in
      let* ba := m' in
      Ok (Some (match o with RLt => ab | REq => negb ab && negb ba | RLe => ab || negb ba end))
  | _, _ => Ok None
  end.

(** relational.cc 101-123: relational::create. *)
Definition rel_fn (o : relop) (a b : expr) : outcome expr :=
  if is_inf a || is_inf b || is_undefined a || is_undefined b then Throws
  else
    let* t := rel_simplify o a b in
    match t with
    | Some v => Ok (EBool v)
    | None =>
        match o with
        | REq =>
            let* c := order a b in
            match c with
            | Lt => Ok (ERel REq a b)
            | _ => Ok (ERel REq b a)
            end
        | _ => Ok (ERel o a b)
        end
    end.

(** conditional.cc 11-24: conditional::create (where, functions.cc 649-652). *)
Definition cond_fn (c a b : expr) : outcome expr :=
  if ident c (EBool true) then Ok a
  else if ident c (EBool false) then Ok b
  else if ident a b then Ok a
  else Ok (ECond c a b).

(** functions.cc 646-647: max and min. *)
Definition max_fn (a b : expr) : outcome expr := let* c := rel_fn RLt a b in cond_fn c b a.
Definition min_fn (a b : expr) : outcome expr := let* c := rel_fn RLt b a in cond_fn c b a.

(** functions.cc 676-686: iverson. *)
Definition iverson_fn (c : expr) : outcome expr :=
  match c with
  | EBool b => Ok (EInt (if b then 1 else 0))
  | _ => Ok (EIver c)
  end.

(** function_expressions.cc 12-53: built_in_function_invocation::create. *)
Definition create_fn (f : fn) (l : list expr) : outcome expr :=
  match f, l with
  | _, [] => Throws
  | (Fcos | Fsin | Ftan | Fcosh | Fsinh | Ftanh), e :: _ => trig n f e
  | Facos, e :: _ => acos_fn e
  | Fasin, e :: _ => asin_fn n e
  | Fatan, e :: _ => atan_fn n e
  | Facosh, e :: _ => acosh_fn e
  | Fasinh, e :: _ => asinh_fn e
  | Fatanh, e :: _ => atanh_fn e
  | Flog, e :: _ => log_fn e
  | Fexp, e :: _ => e_exp I n e
  | Fabs, e :: _ => abs_fn e
  | Fsign, e :: _ => signum_fn e
  | Ffloor, e :: _ => floor_fn e
  | Fatan2, y :: x :: _ => atan2_fn y x
  | Fatan2, _ => UB
  end.

End Fn.

(** derivative_expression.cc 11-34: derivative::create. *)
Definition is_diff_arg (e : expr) : bool := match e with EVar _ | ESymFn _ _ => true | _ => false end.
Definition deriv_fn (f x : expr) (order : Z) : outcome expr :=
  if order <=? 0 then Throws
  else if negb (is_diff_arg x) then Throws
  else match f with
  | EDeriv g y m => if ident y x then Ok (EDeriv g x (m + order)) else Ok (EDeriv f x order)
  | _ => Ok (EDeriv f x order)
  end.

(** substitute_expression.cc 9-27: substitution::create. *)
Definition subst_fn (i t r : expr) : outcome expr :=
  if is_num i then Ok i
  else if is_num t then Throws
  else if ident t r then Ok i
  else Ok (ESubst i t r).

(** stop_derivative.cc 10-16 and unevaluated.cc 9-16. *)
Definition stop_fn (a : expr) : outcome expr := match a with EStop _ => Ok a | _ => Ok (EStop a) end.
Definition uneval_fn (a : expr) : outcome expr := match a with EUneval _ => Ok a | _ => Ok (EUneval a) end.
