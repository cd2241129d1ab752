(** Plain text of expressions: /repo/components/core/wf/plain_formatter.cc, with get_precedence (expression.cc 188-211)
    and get_formatting_info (expressions/multiplication.cc 300-366).

    Left out: matrices, compound expressions (custom types, external functions) and the cache of the formatter (C48).
    Parameters: the types of the function arguments (the model of a variable only has their names) and fmt::format of
    doubles.  Indices of elements are converted with [Z.to_nat]: they are never negative. *)
From Coq Require Import String List Arith ZArith Bool.
From Flocq Require Import IEEE754.BinarySingleNaN.
From Verif Require Import Outcome CheckedIntModel RationalModel IntFloatModel ExprModel BuildModel FuncModel CollectModel CustomTypeModel.
From Verif Require AstModel.
Import ListNotations.
Open Scope string_scope.
Open Scope outcome_scope.

Record text_params := mk_text_params {
  t_type : string -> ty;          (* argument_type() of a function argument *)
  t_double : f64 -> string        (* fmt::format("{}", double) *)
}.

(** enumerations.h 15-22: the enumeration precedence. *)
Definition p_relational : nat := 0.
Definition p_addition : nat := 1.
Definition p_multiplication : nat := 2.
Definition p_power : nat := 3.
Definition p_none : nat := 5.

(** expression.cc 188-211: get_precedence. *)
Definition get_precedence (e : expr) : nat :=
  match e with
  | EMul _ => p_multiplication
  | EAdd _ => p_addition
  | EPow _ _ => p_power
  | ERat _ => p_multiplication
  | ERel _ _ _ => p_relational
  | EInt z => if (z <? 0)%Z then p_multiplication else p_none
  | EFlt f => if f64_lt f f64_zero then p_multiplication else p_none
  | _ => p_none
  end.

(** enumerations.h 214-225: string_from_relational_operation. *)
Definition relop_string (o : relop) : string := match o with RLt => "<" | RLe => "<=" | REq => "==" end.
(** enumerations.h 228-237: string_from_symbolic_constant. *)
Definition symc_string (c : symc) : string := match c with Euler => "E" | Pi => "pi" end.

(** expressions/multiplication.h: multiplication_format_parts. *)
Inductive part := QInt (z : Z) | QFlt (f : f64) | QPow (b x : expr).

Section Text.
Variable I : impl.
Variable n : nat.
Variable T : text_params.

(** std::sort with a comparator on pairs of keys (plain_formatter.cc 60-65, multiplication.cc 305-311), as insertion sort.
    Operands with equal keys are identical. *)
Definition key_lt (a b : expr * expr) : outcome bool :=
  let* c := then_by (order (fst a) (fst b)) (order (snd a) (snd b)) in Ok (match c with Lt => true | _ => false end).
Fixpoint key_insert (x : (expr * expr) * expr) (l : list ((expr * expr) * expr)) : outcome (list ((expr * expr) * expr)) :=
  match l with
  | [] => Ok [x]
  | y :: t => let* b := key_lt (fst y) (fst x) in if b then let* t' := key_insert x t in Ok (y :: t') else Ok (x :: l)
  end.
Fixpoint key_sort (l : list ((expr * expr) * expr)) : outcome (list ((expr * expr) * expr)) :=
  match l with
  | [] => Ok []
  | x :: t => let* t' := key_sort t in key_insert x t'
  end.

(** The comparator of sums: first the multiplicand, then the coefficient. *)
Definition add_key (e : expr) : outcome ((expr * expr) * expr) :=
  let* cm := as_coeff_and_mul I e in Ok ((snd cm, fst cm), e).
Definition sorted_terms (l : list expr) : outcome (list expr) :=
  let* k := AstModel.mapM add_key l in let* s := key_sort k in Ok (map snd s).
(** The comparator of products: first the base, then the exponent. *)
Definition sorted_factors (l : list expr) : outcome (list expr) :=
  let* s := key_sort (map (fun e => (as_base_and_exp e, e)) l) in Ok (map snd s).

(** multiplication.cc 300-366: get_formatting_info; the sign, the numerator and the denominator.  The operands are
    taken in order. *)
Definition factor_part (e : expr) (r : bool * list part * list part) : outcome (bool * list part * list part) :=
  let '(sign, num_, den_) := r in
  match e with
  | ERat q =>
      let* a := ck_abs (num q) in
      Ok (if (num q <? 0)%Z then negb sign else sign,
          if (a =? 1)%Z then num_ else num_ ++ [QInt a], den_ ++ [QInt (den q)])%list
  | EInt z =>
      let* num' := (if ((z =? 1) || (z =? -1))%Z then Ok num_ else let* a := ck_abs z in Ok (num_ ++ [QInt a])%list) in
      Ok (if (z <? 0)%Z then negb sign else sign, num', den_)
  | EFlt f => Ok (if f64_lt f f64_zero then negb sign else sign, num_ ++ [QFlt (Babs f)], den_)%list
  | _ =>
      let (b, x) := as_base_and_exp e in
      let* cm := as_coeff_and_mul I x in
      if is_negative_number (fst cm) then
        if is_negative_one x then Ok (sign, num_, den_ ++ [QPow b (EInt 1)])%list
        else let* m := e_neg I n x in Ok (sign, num_, den_ ++ [QPow b m])%list
      else Ok (sign, num_ ++ [QPow b x], den_)%list
  end.
Fixpoint factor_parts (l : list expr) (r : bool * list part * list part) : outcome (bool * list part * list part) :=
  match l with
  | [] => Ok r
  | e :: t => let* r' := factor_part e r in factor_parts t r'
  end.
Definition formatting_info (l : list expr) : outcome (bool * list part * list part) :=
  let* terms := sorted_factors l in
  let* r := factor_parts terms (false, [], []) in
  let '(sign, num_, den_) := r in
  Ok (sign, match num_ with [] => [QInt 1] | _ => num_ end, den_).

(** plain_formatter.cc 98-110: the accesses of format_access_sequence. *)
Definition access_string (a : access) : outcome string :=
  match a with
  | AField _ f => Ok ("." ++ f)
  | AMatrix r c e => let* rc := compute_indices r c e in
      Ok ("[" ++ AstModel.dec_nat (fst rc) ++ ", " ++ AstModel.dec_nat (snd rc) ++ "]")
  end.

(** plain_formatter.cc 348-382: variables. *)
Definition var_text (v : var) : outcome string :=
  match v with
  | VNamed a _ => Ok a
  | VUnique i _ => Ok ("$u_" ++ AstModel.dec i)
  | VArg a i _ =>
      match t_type T a with
      | TScalar _ => Ok a
      | TMatrix r c => let* s := access_string (AMatrix r c (Z.to_nat i)) in Ok (a ++ s)
      | TCustom _ _ =>
          let* q := determine_access_sequence (t_type T a) (Z.to_nat i) in
          let* l := AstModel.mapM access_string q in Ok (a ++ String.concat "" l)
      end
  end.

Section Step.
Variable self : expr -> outcome string.

(** plain_formatter.cc 384-394: format_precedence. *)
Definition format_precedence (parent : nat) (e : expr) : outcome string :=
  let* s := self e in Ok (if (get_precedence e <=? parent)%nat then "(" ++ s ++ ")" else s).
(** plain_formatter.cc 396-401: format_power. *)
Definition format_power (b x : expr) : outcome string :=
  let* s := format_precedence p_power b in let* t := format_precedence p_power x in Ok (s ++ "**" ++ t).
(** plain_formatter.cc 245-258: format_element. *)
Definition format_element (q : part) : outcome string :=
  match q with
  | QPow b x => if is_one x then format_precedence p_multiplication b else format_power b x
  | QInt z => Ok (AstModel.dec z)
  | QFlt f => Ok (t_double T f)
  end.
(** Elements separated by [*] (260-264 and 272-276). *)
Fixpoint format_elements (l : list part) : outcome string :=
  match l with
  | [] => Ok ""
  | [q] => format_element q
  | q :: t => let* s := format_element q in let* r := format_elements t in Ok (s ++ "*" ++ r)
  end.
(** plain_formatter.cc 235-282: products. *)
Definition format_multiplication (l : list expr) : outcome string :=
  if (List.length l <? 2)%nat then Throws
  else
    let* info := formatting_info l in
    let '(sign, num_, den_) := info in
    let* a := format_elements num_ in
    let a := (if sign : bool then "-" else "") ++ a in
    match den_ with
    | [] => Ok a
    | [q] => let* b := format_element q in Ok (a ++ "/" ++ b)
    | _ => let* b := format_elements den_ in Ok (a ++ "/(" ++ b ++ ")")
    end.
(** plain_formatter.cc 67-91: one term of a sum; [first] tells whether it is the first one. *)
Definition format_term (first : bool) (e : expr) : outcome string :=
  let* cm := as_coeff_and_mul I e in
  let (c, m) := cm : expr * expr in
  if is_negative_number c then
    let* s := (if is_negative_one c then format_precedence p_addition m
               else let* e' := e_neg I n e in format_precedence p_addition e') in
    Ok ((if first then "-" else " - ") ++ s)
  else
    let* s := (if is_one c then format_precedence p_addition m else format_precedence p_addition e) in
    Ok ((if first then "" else " + ") ++ s).
Fixpoint format_terms (first : bool) (l : list expr) : outcome string :=
  match l with
  | [] => Ok ""
  | e :: t => let* s := format_term first e in let* r := format_terms false t in Ok (s ++ r)
  end.
(** plain_formatter.cc 54-93: sums. *)
Definition format_addition (l : list expr) : outcome string :=
  if (List.length l <? 2)%nat then Throws
  else let* terms := sorted_terms l in format_terms true terms.
(** Arguments separated by commas (151-158, 287-294, 333-339). *)
Definition format_args (l : list expr) : outcome string :=
  let* s := AstModel.mapM self l in Ok (String.concat ", " s).

(** The call operators of the formatter. *)
Definition format_step (e : expr) : outcome string :=
  match e with
  | EAdd l => format_addition l
  | EMul l => format_multiplication l
  | EPow b x =>                                                                       (* 299-308 *)
      if is_negative_one x then let* s := format_precedence p_multiplication b in Ok ("1/" ++ s) else format_power b x
  | EInt z => Ok (AstModel.dec z)                                                     (* 196-198 *)
  | EFlt f => Ok (t_double T f)                                                       (* 204-206 *)
  | ERat q => Ok (AstModel.dec (num q) ++ "/" ++ AstModel.dec (den q))                (* 310-312 *)
  | ESym c => Ok (symc_string c)                                                      (* 175-177 *)
  | EInf => Ok "zoo"                                                                  (* 191 *)
  | EImag => Ok "I"                                                                   (* 194 *)
  | EUndef => Ok "nan"                                                                (* 342 *)
  | EVar v => var_text v
  | EFun f l => let* s := format_args l in Ok (fn_name f ++ "(" ++ s ++ ")")          (* 284-297 *)
  | ESymFn f l => let* s := format_args l in Ok (f ++ "(" ++ s ++ ")")                (* 330-340 *)
  | EUneval a => let* s := self a in Ok ("(" ++ s ++ ")")                             (* 344-346 *)
  | ECond c a b => let* s := format_args [c; a; b] in Ok ("where(" ++ s ++ ")")       (* 168-173 *)
  | EIver c => let* s := self c in Ok ("iverson(" ++ s ++ ")")                        (* 200-202 *)
  | EDeriv f x k =>                                                                   (* 179-189 *)
      let* s := format_args [f; x] in
      Ok ("Derivative(" ++ s ++ (if (1 <? k)%Z then ", " ++ AstModel.dec k else "") ++ ")")
  | ESubst i t r => let* s := format_args [i; t; r] in Ok ("Subs(" ++ s ++ ")")       (* 325-328 *)
  | EStop a => let* s := self a in Ok ("StopDerivative(" ++ s ++ ")")                 (* 321-323 *)
  | EBool b => Ok (if b then "True" else "False")                                     (* 95-98 *)
  | ERel o l r =>                                                                     (* 314-319 *)
      let* s := format_precedence p_relational l in
      let* t := format_precedence p_relational r in
      Ok (s ++ " " ++ relop_string o ++ " " ++ t)
  end.
End Step.

(** plain_formatter.cc 18-36: the visit.  [k] bounds the depth: the terms of sums are negated on the way. *)
Fixpoint plain_text (k : nat) (e : expr) : outcome string :=
  match k with O => NoFuel | S k => format_step (plain_text k) e end.
End Text.
