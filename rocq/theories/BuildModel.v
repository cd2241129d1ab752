(** Model of the simplifying constructors: components/core/wf/expressions/addition.cc,
    multiplication.{h,cc}, power.{h,cc}, functions.cc (exp) and the operators of expression.cc.

    The C++ functions are mutually recursive. [ops] is the record of those functions, [step_ops] gives
    their bodies in terms of the functions they call, and [ops_n n] is the n-fold unrolling: a call that
    needs a deeper recursion yields [NoFuel]. *)
From Coq Require Import String List ZArith Bool.
From Flocq Require Import IEEE754.BinarySingleNaN.
From Verif Require Import Outcome CheckedIntModel RationalModel IntUtilsModel IntFloatModel ExprModel.
Import ListNotations.
Open Scope Z_scope.
Open Scope outcome_scope.

Definition efold {S A} (f : S -> A -> outcome S) : list A -> S -> outcome S :=
  fix go l s :=
    match l with
    | [] => Ok s
    | a :: t => let* s' := f s a in go t s'
    end.

Definition emap {A B} (f : A -> outcome B) : list A -> outcome (list B) :=
  fix go l :=
    match l with
    | [] => Ok []
    | a :: t => let* b := f a in let* bs := go t in Ok (b :: bs)
    end.

(** addition.h 94-130, multiplication.h 126-175: coefficient and unordered map of terms. *)
Record parts := mk_parts { p_coeff : coeff; p_terms : list (expr * expr) }.

Record ops := mk_ops {
  o_add : list expr -> outcome expr;                 (* addition::from_operands *)
  o_mul2 : expr -> expr -> outcome expr;             (* multiplication::from_two_operands *)
  o_mul : list expr -> outcome expr;                 (* multiplication::from_operands *)
  o_pow : expr -> expr -> outcome expr;              (* power::create *)
  o_simp : expr -> expr -> outcome (option expr);    (* pow_maybe_simplify *)
  o_visit : parts -> expr -> outcome parts           (* visit(expr, multiplication_parts) *)
}.

Definition ops_0 : ops :=
  mk_ops (fun _ => NoFuel) (fun _ _ => NoFuel) (fun _ => NoFuel) (fun _ _ => NoFuel)
         (fun _ _ => NoFuel) (fun _ _ => NoFuel).

Section Body.
Variable I : impl.
Variable r : ops.

(** hash and is_identical of the key (hash_struct, is_identical_struct). *)
Definition key_eq (a b : expr) : bool := (i_hash I a =? i_hash I b) && ident a b.

Fixpoint lookup (k : expr) (l : list (expr * expr)) : option expr :=
  match l with
  | [] => None
  | (a, v) :: t => if key_eq a k then Some v else lookup k t
  end.

Fixpoint update (k : expr) (v : expr) (l : list (expr * expr)) : list (expr * expr) :=
  match l with
  | [] => []
  | (a, w) :: t => if key_eq a k then (a, v) :: t else (a, w) :: update k v t
  end.

Fixpoint erase (k : expr) (l : list (expr * expr)) : list (expr * expr) :=
  match l with
  | [] => []
  | (a, w) :: t => if key_eq a k then t else (a, w) :: erase k t
  end.

(** ** Sums *)
(** addition.cc 136-146: one non-addition operand. *)
Definition add_term_leaf (p : parts) (e : expr) : outcome parts :=
  match coeff_of e with
  | Some c => let* c' := add_num (p_coeff p) c in Ok (mk_parts c' (p_terms p))
  | None =>
      let* cm := as_coeff_and_mul I e in
      let (c, m) := cm in
      match lookup m (p_terms p) with
      | None => Ok (mk_parts (p_coeff p) (p_terms p ++ [(m, c)]))
      | Some old =>
          let* s := o_add r [old; c] in
          Ok (mk_parts (p_coeff p) (update m s (p_terms p)))
      end
  end.

(** addition.cc 130-134, 156: add_terms. *)
Fixpoint add_terms (p : parts) (e : expr) {struct e} : outcome parts :=
  match e with
  | EAdd l => efold add_terms l p
  | _ => add_term_leaf p e
  end.

(** addition.cc 158-161, multiplication.cc 183-186: normalize_coefficients. *)
Definition normalize (p : parts) : parts :=
  mk_parts (p_coeff p) (filter (fun kv => negb (is_zero (snd kv))) (p_terms p)).

(** addition.cc 176-186: one term of the sum. *)
Definition add_create_term (kv : expr * expr) : outcome expr :=
  let (m, c) := kv in
  if is_one c then Ok m
  else if negb (is_mul m) && negb (is_mul c) then make_mul I [c; m]
  else o_mul2 r m c.

(** addition.cc 163-194: create_addition. *)
Definition create_addition (p : parts) : outcome expr :=
  let* c := expr_of (p_coeff p) in
  if is_undefined c then Ok EUndef
  else
    let* ts := emap add_create_term (i_iter I (p_terms p)) in
    let args := (if is_zero c then [] else [c]) ++ ts in
    match args with
    | [] => Ok (EInt 0)
    | [a] => Ok a
    | _ => make_add I args
    end.

(** addition.cc 75-90: apply; both operands must be constants. *)
Definition add_apply (a b : expr) : option (coeff * coeff) :=
  match coeff_of a, coeff_of b with
  | Some x, Some y => Some (x, y)
  | Some CUndef, None => Some (CUndef, CUndef)
  | None, Some CUndef => Some (CUndef, CUndef)
  | Some CInf, None => Some (CInf, CInt 0)
  | None, Some CInf => Some (CInf, CInt 0)
  | _, _ => None
  end.

(** addition.cc 108-113. *)
Definition add_parts (args : list expr) : outcome expr :=
  let* p := efold add_terms args (mk_parts (CInt 0) []) in
  create_addition (normalize p).

(** addition.cc 93-114: from_operands. *)
Definition add_body (args : list expr) : outcome expr :=
  match args with
  | [] => Throws
  | [a] => Ok a
  | [a; b] =>
      match add_apply a b with
      | Some (x, y) => let* c := add_num x y in expr_of c
      | None => add_parts args
      end
  | _ => add_parts args
  end.

(** ** Products *)
(** multiplication.cc 144-164: insert_power. *)
Definition insert_power (p : parts) (base exponent : expr) : outcome parts :=
  match lookup base (p_terms p) with
  | None => Ok (mk_parts (p_coeff p) (p_terms p ++ [(base, exponent)]))
  | Some old =>
      let* updated := o_add r [old; exponent] in
      let* simplified := (if is_mul base || is_pow base then o_simp r base updated else Ok None) in
      match simplified with
      | Some s =>
          if is_mul s || is_pow s
          then o_visit r (mk_parts (p_coeff p) (erase base (p_terms p))) s
          else Ok (mk_parts (p_coeff p) (update base updated (p_terms p)))
      | None => Ok (mk_parts (p_coeff p) (update base updated (p_terms p)))
      end
  end.

(** multiplication.cc 102-142: the visitor of multiplication_parts (factorize_integers_ = false). *)
Fixpoint mul_visit (p : parts) (e : expr) {struct e} : outcome parts :=
  match e with
  | EMul l => efold mul_visit l p
  | EPow b x => insert_power p b x
  | EFun Fexp (x :: _) => insert_power p (ESym Euler) x
  | _ =>
      match coeff_of e with
      | Some c => let* c' := mul_num (p_coeff p) c in Ok (mk_parts c' (p_terms p))
      | None => insert_power p e (EInt 1)
      end
  end.

(** multiplication.cc 206-227: one base and exponent of create_multiplication; the state is the list of
    operands (args) and the constant coefficient. *)
Definition create_mul_step (s : list expr * coeff) (kv : expr * expr) : outcome (list expr * coeff) :=
  let (args, c) := s in
  let* pw := o_pow r (fst kv) (snd kv) in
  if has_numeric_coefficient pw then
    let* cm := as_coeff_and_mul I pw in
    let (pc, m) := cm in
    let* c' := (if is_num pc then match coeff_of pc with Some k => mul_num c k | None => Ok c end else Ok c) in
    Ok (if is_one m then args else args ++ [m], c')
  else Ok (args ++ [pw], c).

(** multiplication.h 80-85: multiply_into_addition. *)
Definition multiply_into_addition (l : list expr) (c : expr) : outcome expr :=
  let* ts := emap (fun f => o_mul2 r f c) l in
  o_add r ts.

(** multiplication.cc 201-246: create_multiplication. *)
Definition create_multiplication (p : parts) : outcome expr :=
  let* s := efold create_mul_step (i_iter I (p_terms p)) ([], p_coeff p) in
  let (args, cc) := s in
  let* c := expr_of cc in
  if is_zero c || is_undefined c then Ok c
  else
    match args with
    | [EAdd l] =>
        if is_one c then Ok (EAdd l) else multiply_into_addition l c
    | _ => maybe_new_mul I (if is_one c then args else args ++ [c])
    end.

(** multiplication.h 222-229. *)
Definition mul_parts (args : list expr) : outcome expr :=
  let* p := efold mul_visit args (mk_parts (CInt 1) []) in
  create_multiplication (normalize p).

(** multiplication.h 232-247: from_two_operands. *)
Definition mul2_body (a b : expr) : outcome expr :=
  match a, b with
  | EAdd l, _ =>
      if is_num b then multiply_into_addition l b else mul_parts [a; b]
  | _, EAdd l =>
      if is_num a then multiply_into_addition l a else mul_parts [a; b]
  | _, _ => mul_parts [a; b]
  end.

(** multiplication.h 203-229: from_operands. *)
Definition mul_body (args : list expr) : outcome expr :=
  match args with
  | [] => Throws
  | [a] => Ok a
  | [a; b] => o_mul2 r a b
  | _ => mul_parts args
  end.

(** ** Powers *)
(** power.h 51-61: factorize_rational_exponent. *)
Definition factorize_exponent (q : rat) : outcome (Z * rat) :=
  let* ip := ck_div (num q) (den q) in
  let* m := ck_rem (num q) (den q) in
  let* f := rat_make m (den q) in
  if (0 <=? num q) || (num f =? 0) then Ok (ip, f)
  else
    let* ip' := ck_sub ip 1 in
    let* one := rat_make 1 1 in
    let* f' := rat_add f one in
    Ok (ip', f').

(** power.cc 87-107: apply_rational_and_int. *)
Definition pow_rat_int (b : rat) (n : Z) : outcome expr :=
  if (num b =? 0) && (n <? 0) then Ok EInf
  else if (num b =? 0) && (n =? 0) then Ok EUndef
  else
    let* a := ck_abs n in
    let* p := integer_power (num b) a in
    let* q := integer_power (den b) a in
    let* v := (if 0 <=? n then rat_make p q else rat_make q p) in
    of_rat v.

(** power.cc 69-85: apply_int_and_int. *)
Definition pow_int_int (b n : Z) : outcome expr :=
  if n <? 0 then
    if b =? 0 then Ok EInf
    else
      let* i := rat_make 1 b in
      let* m := ck_neg n in
      pow_rat_int i m
  else if (b =? 0) && (n =? 0) then Ok EUndef
  else let* z := integer_power b n in Ok (EInt z).

(** power.cc 109-113: int_base_and_exponent, keyed by the denominator of the exponent. *)
Definition root_map : Type := list (Z * (Z * Z)).

Fixpoint root_find (d : Z) (m : root_map) : option (Z * Z) :=
  match m with
  | [] => None
  | (k, v) :: t => if k =? d then Some v else root_find d t
  end.

Fixpoint root_set (d : Z) (v : Z * Z) (m : root_map) : root_map :=
  match m with
  | [] => [(d, v)]
  | (k, w) :: t => if k =? d then (d, v) :: t else (k, w) :: root_set d v t
  end.

(** power.cc 149-186: the body of the loop over prime factors. *)
Definition root_step (q : rat) (s : rat * root_map) (f : prime_factor) : outcome (rat * root_map) :=
  let (rc, m) := s in
  let* ae := rat_mul q (rat_of_int (snd f)) in
  let* ifr := factorize_exponent ae in
  let (ip, fr) := ifr in
  let* isint := rat_is_integer fr in
  if negb (negb (num fr <? 0) && ((num fr =? 0) || negb isint)) then Throws
  else
    let* rc' :=
      (if 0 <=? ip
       then let* p := integer_power (fst f) ip in let* x := rat_make p 1 in rat_mul rc x
       else let* n := ck_neg ip in let* p := integer_power (fst f) n in
            let* x := rat_make 1 p in rat_mul rc x) in
    if num fr =? 0 then Ok (rc', m)
    else
      match root_find (den fr) m with
      | None => Ok (rc', root_set (den fr) (fst f, num fr) m)
      | Some (b, x) =>
          let* g := ck_gcd x (num fr) in
          let* e1 := ck_div x g in
          let* p1 := integer_power b e1 in
          let* e2 := ck_div (num fr) g in
          let* p2 := integer_power (fst f) e2 in
          let* b' := ck_mul p1 p2 in
          Ok (rc', root_set (den fr) (b', g) m)
      end.

(** power.cc 188-211: the factor (-1) of a negative base; returns the coefficient, the map and the
    operands collected so far. *)
Definition root_sign (q : rat) (rc : rat) (m : root_map) : outcome (rat * root_map * list expr) :=
  let* ifr := factorize_exponent q in
  let (ip, fr) := ifr in
  let* rc' := (if negb (ck_is_even ip) then rat_mul_int rc (-1) else Ok rc) in
  let* half := rat_make 1 2 in
  if rat_eqb fr half then Ok (rc', m, [EImag])
  else if negb (num fr =? 0) then
    match root_find (den fr) m with
    | Some (b, x) =>
        if x =? num fr then
          let* b' := ck_mul b (-1) in Ok (rc', root_set (den fr) (b', x) m, [])
        else let* fe := of_rat fr in Ok (rc', m, [EPow (EInt (-1)) fe])
    | None => let* fe := of_rat fr in Ok (rc', m, [EPow (EInt (-1)) fe])
    end
  else Ok (rc', m, []).

(** power.cc 213-217. *)
Definition root_operand (kv : Z * (Z * Z)) : outcome expr :=
  let* q := rat_make (snd (snd kv)) (fst kv) in
  let* e := of_rat q in
  Ok (EPow (EInt (fst (snd kv))) e).

(** power.cc 115-222: apply_int_and_rational. *)
Definition pow_int_rat (b : Z) (q : rat) : outcome expr :=
  if den q <=? 0 then Throws
  else if b =? 1 then Ok (EInt 1)
  else if b =? 0 then
    if num q =? 0 then Ok EUndef else if num q <? 0 then Ok EInf else Ok (EInt 0)
  else
    let* ab := ck_abs b in
    let* fs := compute_prime_factors ab in
    let* one := rat_make 1 1 in
    let* s := efold (root_step q) fs (one, []) in
    let (rc, m) := s in
    let* sg := (if b <? 0 then root_sign q rc m else Ok (rc, m, [])) in
    let '(rc, m, os) := sg in
    let* roots := emap root_operand (i_iterz I m) in
    let* cs := (if (num rc =? 1) && (den rc =? 1) then Ok []
                else let* c := of_rat rc in Ok [c]) in
    o_mul r (os ++ roots ++ cs).

Definition coeff_neg (c : coeff) : bool :=
  match c with CInt z => z <? 0 | CRat q => num q <? 0 | CFlt f => f64_lt f f64_zero | _ => false end.
Definition coeff_pos (c : coeff) : bool :=
  match c with CInt z => 0 <? z | CRat q => 0 <? num q | CFlt f => f64_lt f64_zero f | _ => false end.

(** power.cc 57-67: apply_float_and_numeric. *)
Definition pow_float (b e : coeff) : expr :=
  if coeff_is_zero b && coeff_neg e then EInf
  else EFlt (i_fpow I (coeff_float b) (coeff_float e)).

(** power.cc 224-235: apply_infinity_and_numeric_constant. *)
Definition pow_inf (e : coeff) : expr :=
  if coeff_pos e then EInf else if coeff_neg e then EInt 0 else EUndef.

(** power.cc 32-55: power_numerics_visitor. *)
Definition pow_numerics (b e : expr) : outcome (option expr) :=
  match b, e with
  | EUndef, _ | _, EUndef => Ok (Some EUndef)
  | EFlt f, EFlt g => Ok (Some (pow_float (CFlt f) (CFlt g)))
  | EFlt f, EInt n => Ok (Some (pow_float (CFlt f) (CInt n)))
  | EFlt f, ERat q => Ok (Some (pow_float (CFlt f) (CRat q)))
  | EInt n, EFlt g => Ok (Some (pow_float (CInt n) (CFlt g)))
  | ERat q, EFlt g => Ok (Some (pow_float (CRat q) (CFlt g)))
  | EInt b, EInt n => let* v := pow_int_int b n in Ok (Some v)
  | ERat b, EInt n => let* v := pow_rat_int b n in Ok (Some v)
  | EInt b, ERat q => let* v := pow_int_rat b q in Ok (Some v)
  | EInf, EInt n => Ok (Some (pow_inf (CInt n)))
  | EInf, ERat q => Ok (Some (pow_inf (CRat q)))
  | EInf, EFlt f => Ok (Some (pow_inf (CFlt f)))
  | _, _ => Ok None
  end.

(** power.cc 237-247: imaginary_unit_power_result. *)
Inductive i_power := IOne | INegOne | II | INegI.

(** power.cc 249-271: imaginary_unit_power (exp / 2 is checked integer division; noexcept). *)
Definition imaginary_unit_power (n : Z) : outcome i_power :=
  noexcept (
    let* h := ck_div n 2 in
    if ck_is_even n then Ok (if ck_is_even h then IOne else INegOne)
    else if 0 <? n then Ok (if ck_is_even h then II else INegI)
    else Ok (if ck_is_even h then INegI else II)).

(** power.cc 281-299: i ** integer. *)
Definition i_pow_int (n : Z) : outcome expr :=
  let* p := imaginary_unit_power n in
  match p with
  | IOne => Ok (EInt 1)
  | INegOne => Ok (EInt (-1))
  | II => Ok EImag
  | INegI => make_mul I [EInt (-1); EImag]
  end.

(** power.cc 301-335: i ** rational. *)
Definition i_pow_rat (q : rat) : outcome expr :=
  let* ifr := factorize_exponent q in
  let (ip, fr) := ifr in
  if num fr <? 0 then Throws
  else
    let* p := imaginary_unit_power ip in
    match p with
    | IOne => let* e := of_rat fr in Ok (EPow EImag e)
    | INegOne => let* e := of_rat fr in make_mul I [EInt (-1); EPow EImag e]
    | II =>
        if ip =? 1 then Ok (EPow EImag (ERat q))
        else
          let* one := rat_make 1 1 in
          let* f1 := rat_add fr one in
          let* e := of_rat f1 in Ok (EPow EImag e)
    | INegI =>
        let* one := rat_make 1 1 in
        let* f1 := rat_add fr one in
        let* e := of_rat f1 in make_mul I [EInt (-1); EPow EImag e]
    end.

(** power.cc 338-348: magnitude_less_than_one. *)
Definition magnitude_less_than_one (e : expr) : outcome bool :=
  match e with
  | ERat q => rat_is_proper q
  | EFlt f => Ok (f64_lt (Babs f) f64_one)
  | _ => Ok false
  end.

(** power.cc 355-381: can_multiply_exponents. *)
Definition can_multiply_exponents (base inner outer : expr) : outcome bool :=
  let* m := magnitude_less_than_one inner in
  if m then Ok true
  else if is_integer_type outer then Ok true
  else Ok (is_non_negative (determine_set base)).

(** power.cc 383-410: maybe_distribute_rational_exponent. *)
Definition maybe_distribute (l : list expr) (q : expr) : outcome (option expr) :=
  let nonneg := filter (fun t => is_non_negative (determine_set t)) l in
  let rest := filter (fun t => negb (is_non_negative (determine_set t))) l in
  match nonneg, rest with
  | [], _ => Ok None
  | _, [] =>
      let* ps := emap (fun t => o_pow r t q) nonneg in
      let* m := o_mul r ps in Ok (Some m)
  | _, _ =>
      let* ps := emap (fun t => o_pow r t q) nonneg in
      let* m := o_mul r ps in
      let* rm := o_mul r rest in
      let* rp := o_pow r rm q in
      let* v := o_mul2 r m rp in Ok (Some v)
  end.

(** expression.cc 37-39: from_complex. *)
Definition of_complex (re im : f64) : outcome expr :=
  let* m := o_mul2 r (of_float im) EImag in
  o_add r [of_float re; m].

(** functions.cc 21-31: operate_on_float. *)
Definition operate_on_float (f : fn) (e : expr) : outcome (option expr) :=
  let* c := complex_cast I false e in
  match c with
  | None => Ok None
  | Some z =>
      let (re, im) := i_cfun I f z in
      if f64_eq im f64_zero then Ok (Some (of_float re))
      else let* v := of_complex re im in Ok (Some v)
  end.

(** functions.cc 55-70: exp. *)
Definition exp_body (e : expr) : outcome expr :=
  if is_zero e then Ok (EInt 1)
  else if is_one e then Ok (ESym Euler)
  else if is_inf e || is_undefined e then Ok EUndef
  else
    let* f := operate_on_float Fexp e in
    match f with
    | Some v => Ok v
    | None => Ok (EFun Fexp [e])
    end.

(** power.cc 412-428: maybe_multiply_onto_exp_function_argument. *)
Definition maybe_exp_arg (b e : expr) : outcome (option expr) :=
  match b with
  | EFun Fexp (x :: _) =>
      if set_eqb (determine_set b) real_positive || is_integer_type e then
        let* p := o_mul2 r x e in
        let* v := exp_body p in Ok (Some v)
      else Ok None
  | _ => Ok None
  end.

(** power.cc 459-487: the last part of pow_maybe_simplify. *)
Definition simp_tail (b e : expr) : outcome (option expr) :=
  if is_inf e then Ok (Some EUndef)
  else if is_zero e then Ok (Some (EInt 1))
  else if is_one e then Ok (Some b)
  else
    match b, e with
    | EMul l, EInt _ =>
        let* ps := emap (fun t => o_pow r t e) l in
        let* m := o_mul r ps in Ok (Some m)
    | EMul l, ERat _ => maybe_distribute l e
    | _, _ => Ok None
    end.

(** power.cc 450-457. *)
Definition simp_exp (b e : expr) : outcome (option expr) :=
  let* x := maybe_exp_arg b e in
  match x with
  | Some v => Ok (Some v)
  | None => simp_tail b e
  end.

(** power.cc 444-448. *)
Definition simp_pow (b e : expr) : outcome (option expr) :=
  match b with
  | EPow bb be =>
      let* ok := can_multiply_exponents bb be e in
      if ok then
        let* m := o_mul2 r be e in
        let* v := o_pow r bb m in Ok (Some v)
      else simp_exp b e
  | _ => simp_exp b e
  end.

(** power.cc 433-443: the base i and the base e. *)
Definition simp_const (b e : expr) : outcome (option expr) :=
  match b, e with
  | EImag, EInt n => let* v := i_pow_int n in Ok (Some v)
  | EImag, ERat q => let* v := i_pow_rat q in Ok (Some v)
  | ESym Euler, _ => let* v := exp_body e in Ok (Some v)
  | _, _ => simp_pow b e
  end.

(** power.cc 437-488: pow_maybe_simplify. *)
Definition simp_body (b e : expr) : outcome (option expr) :=
  let* n := pow_numerics b e in
  match n with
  | Some v => Ok (Some v)
  | None =>
      if (is_one b || is_negative_one b) && is_inf e then Ok (Some EUndef)
      else simp_const b e
  end.

(** power.cc 430-435: power::create. *)
Definition pow_body (b e : expr) : outcome expr :=
  let* s := o_simp r b e in
  match s with
  | Some v => Ok v
  | None => Ok (EPow b e)
  end.

Definition step_ops : ops := mk_ops add_body mul2_body mul_body pow_body simp_body mul_visit.

End Body.

Fixpoint ops_n (I : impl) (n : nat) : ops :=
  match n with
  | O => ops_0
  | S n => step_ops I (ops_n I n)
  end.

(** ** The operators of expression.cc 78-119, for a recursion depth [n]. *)
Definition e_add (I : impl) (n : nat) (l : list expr) : outcome expr := o_add (ops_n I n) l.
Definition e_mul (I : impl) (n : nat) (l : list expr) : outcome expr := o_mul (ops_n I n) l.
Definition e_mul2 (I : impl) (n : nat) (a b : expr) : outcome expr := o_mul2 (ops_n I n) a b.
Definition e_pow (I : impl) (n : nat) (a b : expr) : outcome expr := o_pow (ops_n I n) a b.
Definition e_neg (I : impl) (n : nat) (a : expr) : outcome expr := e_mul2 I n (EInt (-1)) a.
Definition e_sub (I : impl) (n : nat) (a b : expr) : outcome expr :=
  let* m := e_neg I n b in e_add I n [a; m].
Definition e_div (I : impl) (n : nat) (a b : expr) : outcome expr :=
  let* i := e_pow I n b (EInt (-1)) in e_mul2 I n a i.
Definition e_exp (I : impl) (n : nat) (a : expr) : outcome expr := exp_body I (ops_n I n) a.
