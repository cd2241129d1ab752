(** When the plain text of an expression can be read back: conditions on names, doubles and powers. *)
From Coq Require Import String Ascii List Arith ZArith Reals Bool.
From Flocq Require Import IEEE754.BinarySingleNaN.
From Verif Require Import Outcome RationalModel IntFloatModel ExprModel BuildModel FuncModel DerivModel CustomTypeModel ExprSpec OrderSpec
  LowerSpec CppSpec PySpec PlainModel.
From Verif Require AstSpec AstModel.
Import ListNotations.
Open Scope string_scope.
Open Scope list_scope.

(** A name: one word that is no keyword. *)
Definition py_identifier (s : string) : Prop :=
  match s with
  | EmptyString => False
  | String c t => py_letter c = true /\ AstSpec.all_chars py_word_char t = true /\ is_in s py_keywords = false
  end.
(** A number: one token that begins with a digit. *)
Fixpoint py_one_token (w s : string) : bool :=
  match s with EmptyString => true | String c t => py_extends w c && py_one_token (snoc w c) t end.
Definition py_number (s : string) : Prop :=
  match s with EmptyString => False | String c t => is_digit c = true /\ py_one_token (String c "") t = true end.

(** Doubles are written as numbers, or as words if they are not finite, with a minus sign if they are negative. *)
Definition doubles_ok (T : text_params) : Prop :=
  forall f, exists w, (py_number w \/ py_identifier w) /\
    t_double T f = (if Bsign f then "-" ++ w else w)%string.

(** ** Names *)
(** The scalars of a structured value, in the order in which they are declared; matrices by rows. *)
Fixpoint elements (t : ty) : list (list step) :=
  match t with
  | TScalar _ => [[]]
  | TMatrix r c => flat_map (fun i => map (fun j => [SElement (Z.of_nat i) (Z.of_nat j)]) (seq 0 c)) (seq 0 r)
  | TCustom _ fields =>
      (fix go (fs : list (string * ty)) : list (list step) :=
         match fs with [] => [] | (f, ft) :: fs' => map (cons (SMember f)) (elements ft) ++ go fs' end) fields
  end.
Fixpoint fields_ok (t : ty) : Prop :=
  match t with
  | TCustom _ fields =>
      (fix go (fs : list (string * ty)) : Prop :=
         match fs with [] => True | (f, ft) :: fs' => (py_identifier f /\ fields_ok ft) /\ go fs' end) fields
  | _ => True
  end.

Definition reserved_functions : list string :=
  map fst builtins ++ ["where"; "iverson"; "StopDerivative"; "Derivative"; "Subs"].

Section Names.
Variables (T : text_params) (E : penv) (s : env).
(** The name of a variable stands for the value of the variable. *)
Definition var_named (v : var) : Prop :=
  match v with
  | VNamed a _ => py_identifier a /\ pe_value E a [] = Rv (ev s v)
  | VUnique i _ => (0 <= i)%Z /\ pe_value E ("$u_" ++ AstModel.dec i)%string [] = Rv (ev s v)
  | VArg a i _ => py_identifier a /\ fields_ok (t_type T a) /\
      exists p, nth_error (elements (t_type T a)) (Z.to_nat i) = Some p /\ pe_value E a p = Rv (ev s v)
  end.
Fixpoint named (e : expr) : Prop :=
  match e with
  | EVar v => var_named v
  | EMul l | EAdd l | EFun _ l => all_of named l
  | ESymFn f l => (py_identifier f /\ is_in f reserved_functions = false /\ forall xs, pe_fun E f xs = ef s f xs) /\ all_of named l
  | EPow a b | EDeriv a b _ | ERel _ a b => named a /\ named b
  | EUneval a | EIver a | EStop a => named a
  | ECond a b c | ESubst a b c => named a /\ named b /\ named c
  | _ => True
  end.
(** The names of the constants stand for them. *)
Definition constants_named : Prop :=
  pe_value E "pi" [] = Rv PI /\ pe_value E "E" [] = Rv (exp 1) /\ pe_value E "I" [] = Fin.
End Names.

(** ** Powers *)
(** The expressions that are formatted for the text of an expression. *)
Inductive shows (I : impl) (n : nat) : expr -> expr -> Prop :=
| sh_refl e : shows I n e e
| sh_child e c d : shows I n e c -> In d (children c) -> shows I n e d
| sh_rest e c k m : shows I n e c -> as_coeff_and_mul I c = Ok (k, m) -> shows I n e m
| sh_term e l a a' : shows I n e (EAdd l) -> In a l -> e_neg I n a = Ok a' -> shows I n e a'
| sh_exponent e b x x' : shows I n e (EPow b x) -> negative_exponent I x -> e_neg I n x = Ok x' -> shows I n e x'.

(** A power with a negative exponent is not complex, and its base is not zero if the exponent is symbolic; and
    reciprocals are not inverted again (the constructors remove such powers). *)
Definition powers_fine (I : impl) (n : nat) (s : env) (e : expr) : Prop :=
  forall b x, shows I n e (EPow b x) ->
    (negative_exponent I x -> eval s (EPow b x) <> Fin /\ (is_num x = false -> eval s b <> Rv 0%R)) /\
    (x = EInt 1 \/ x = EInt (-1) \/ negative_exponent I x /\ e_neg I n x = Ok (EInt 1) -> forall c, b <> EPow c (EInt (-1))).
