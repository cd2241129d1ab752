(** From the operations of a block to the syntax tree of an expression, and from there to C++ text.
    /repo/components/core/wf/code_generation/ast_conversion.cc, ir_value.cc, cpp_code_generator.cc.

    The part that is modelled: expressions over scalars.  Not modelled: constructors of matrices and structs, and
    overrides of the formatters that a user installs from Python. *)
From Coq Require Import String Ascii List Arith ZArith Bool DecimalString.
From Verif Require Import Outcome IrModel.
Import ListNotations.
Open Scope outcome_scope.
Open Scope string_scope.
Open Scope nat_scope.

(** fmt::format("{}", z) for an integer. *)
Definition dec (z : Z) : string := NilZero.string_of_int (Z.to_int z).
Definition dec_nat (n : nat) : string := dec (Z.of_nat n).

(** The expressions of ast.h.  A float literal keeps the constant it comes from (integer-valued, rational and float
    constants are all turned into a double first, ast_conversion.cc 479-486); an argument says if it is a matrix; an
    external call if it returns a floating point scalar. *)
Inductive ast :=
| AVar (s : string)                          (* variable_ref *)
| AArg (s : string) (matrix : bool)          (* get_argument *)
| AElem (a : ast) (row col : nat)            (* get_matrix_element *)
| AField (a : ast) (f : string)              (* get_field *)
| AInt (z : Z)                               (* integer_literal *)
| AFloat (l : load_src)                      (* float_literal *)
| ABool (b : bool)                           (* boolean_literal *)
| ASym (c : sym_const)                       (* special_constant *)
| AAdd (l : list ast)                        (* add *)
| AMul (l : list ast)                        (* multiply *)
| ADiv (a b : ast)                           (* divide *)
| ANeg (a : ast)                             (* negate *)
| ACompare (r : rel_op) (a b : ast)          (* compare *)
| ATernary (c a b : ast)                     (* ternary *)
| ACast (t : numeric) (a : ast)              (* cast *)
| AStd (f : std_fn) (l : list ast)           (* call_std_function *)
| ACall (f : string) (float : bool) (l : list ast) (* call_external_function *)
| AParen (a : ast).                          (* parenthetical *)

(** enumerations.h 15-22. *)
Definition relational : nat := 0.
Definition addition : nat := 1.
Definition multiplication : nat := 2.
Definition ternary : nat := 4.
Definition prec_none : nat := 5.   (* std::numeric_limits<int>::max(): above all others *)

(** ir_value.cc 32-40. *)
Definition operation_precedence (o : op) : nat :=
  match o with
  | OCompare _ => relational
  | OAdd => addition
  | OMul | ODiv => multiplication
  | OCond => ternary
  | _ => prec_none
  end.

(** The steps of determine_access_sequence (types.h): a matrix element or a field. *)
Inductive access := AcElem (row col : nat) | AcField (f : string).
(** The arguments of the function: name and type; of a struct we know how its elements are reached. *)
Inductive arg_type := ArgScalar | ArgMatrix (rows cols : nat) | ArgStruct (elems : list (list access)).
Record names := mkn {
  n_width : nat;                               (* value_width_ *)
  n_args : nat -> option (string * arg_type);  (* signature_.argument_by_name *)
  n_vars : nat -> string                       (* names of free variables *)
}.

Fixpoint zeros (n : nat) : string := match n with O => "" | S k => "0" ++ zeros k end.
(** format_variable_name, ast_conversion.h 58-60: "v{:0>{}}". *)
Definition variable_name (w : nat) (n : name) : string :=
  "v" ++ zeros (w - String.length (dec_nat n)) ++ dec_nat n.

(** make_field_access_sequence, ast_conversion.cc 542-560. *)
Definition access_field (prev : ast) (a : access) : ast :=
  match a with AcElem r c => AElem prev r c | AcField f => AField prev f end.

(** ast_conversion.cc 520-540: reading one element of an argument. *)
Definition is_matrix_arg (t : arg_type) : bool := match t with ArgMatrix _ _ => true | _ => false end.
Definition read_argument (s : string) (t : arg_type) (elem : nat) : outcome ast :=
  match t with
  | ArgScalar => if elem =? 0 then Ok (AArg s false) else Throws
  | ArgMatrix rows cols =>   (* compute_indices asserts the bound and is row major, types.h *)
      if elem <? rows * cols then Ok (AElem (AArg s true) (elem / cols) (elem mod cols)) else Throws
  | ArgStruct elems =>
      match nth_error elems elem with
      | Some seq => Ok (fold_left access_field seq (AArg s false))
      | None => Throws
      end
  end.

(** ast_conversion.cc 469-505. *)
Definition visit_load (N : names) (l : load_src) : outcome ast :=
  match l with
  | LSym c => Ok (ASym c)
  | LInt z => Ok (AInt z)
  | LFloat _ | LRat _ _ => Ok (AFloat l)
  | LBool b => Ok (ABool b)
  | LVar v => Ok (AVar (n_vars N v))
  | LArg arg elem =>
      match n_args N arg with Some (s, t) => read_argument s t elem | None => Throws end
  | LCustomArg arg =>
      match n_args N arg with Some (s, t) => Ok (AArg s (is_matrix_arg t)) | None => Throws end
  end.

Definition float_scalar (t : vtype) : bool := match t with TScalar NFloat => true | _ => false end.
Definition declared (d : list name) (n : name) : bool := existsb (Nat.eqb n) d.

Fixpoint mapM {A B : Type} (f : A -> outcome B) (l : list A) : outcome (list B) :=
  match l with
  | [] => Ok []
  | a :: t => let* b := f a in let* r := mapM f t in Ok (b :: r)
  end.

Section Visit.
  Variable N : names.
  Variable g : graph.
  Variable d : list name.   (* declared_values_ *)

  (** visit_operation_argument, ast_conversion.cc 370-381, over [self] = visit_value. *)
  Definition visit_argument (self : name -> outcome ast) (p : option nat) (n : name) : outcome ast :=
    if declared d n then Ok (AVar (variable_name (n_width N) n))
    else match p with
         | Some q => if operation_precedence (op_of g n) <=? q then let* a := self n in Ok (AParen a) else self n
         | None => self n
         end.
  (** visit_value, 354-368, and the call operators, 390-518. *)
  Fixpoint visit_value (k : nat) (n : name) : outcome ast :=
    match k with
    | O => NoFuel
    | S k =>
        let arg p a := visit_argument (visit_value k) p a in
        match op_of g n, args g n with
        | OAdd, l => let* r := mapM (arg (Some addition)) l in Ok (AAdd r)
        | OMul, l => if 2 <=? length l then let* r := mapM (arg (Some multiplication)) l in Ok (AMul r) else Throws
        | OCallExt f, l => let* r := mapM (arg None) l in Ok (ACall f (float_scalar (ty_of g n)) r)
        | OCallStd f, l => let* r := mapM (arg None) l in Ok (AStd f r)
        | OCast t, [a] => let* x := arg None a in Ok (ACast t x)
        | OCompare r, [a; b] => let* x := arg None a in let* y := arg None b in Ok (ACompare r x y)
        | OCond, [c; a; b] =>
            let* z := arg (Some ternary) c in let* x := arg (Some ternary) a in
            let* y := arg (Some ternary) b in Ok (ATernary z x y)
        | OCopy, [a] => arg None a
        | ODiv, [a; b] =>
            let* x := arg (Some multiplication) a in let* y := arg (Some multiplication) b in Ok (ADiv x y)
        | ONeg, [a] => let* x := arg (Some multiplication) a in Ok (ANeg x)
        | OLoad l, _ => visit_load N l
        | OGet i, [a] =>
            match ty_of g a with
            | TScalar _ => if i =? 0 then visit_value k a else Throws
            | TMatrix rows cols =>
                if i <? rows * cols then let* x := arg None a in Ok (AElem x (i / cols) (i mod cols)) else Throws
            | TVoid | TCustom _ => Throws   (* custom types: not modelled *)
            end
        | _, _ => Throws   (* jump, save, phi, output_required; constructors: not modelled *)
        end
    end.
End Visit.

(** string_from_relational_operation, enumerations.h 214-225. *)
Definition relational_string (r : rel_op) : string := match r with RLt => "<" | RLe => "<=" | REq => "==" end.
(** cpp_string_from_numeric_type, cpp_code_generator.cc 20-31. *)
Definition type_string (t : numeric) : string :=
  match t with NBool => "bool" | NInt => "std::int64_t" | NFloat => "Scalar" end.
(** cpp_string_for_symbolic_constant. *)
Definition constant_string (c : sym_const) : string := match c with SEuler => "M_E" | SPi => "M_PI" end.
(** string_from_standard_library_function, enumerations.h 271-318. *)
Definition function_string (f : std_fn) : string :=
  match f with
  | F_cos => "cos" | F_sin => "sin" | F_tan => "tan" | F_acos => "acos" | F_asin => "asin" | F_atan => "atan"
  | F_cosh => "cosh" | F_sinh => "sinh" | F_tanh => "tanh" | F_acosh => "acosh" | F_asinh => "asinh"
  | F_atanh => "atanh" | F_log => "log" | F_exp => "exp" | F_sqrt => "sqrt" | F_abs => "abs"
  | F_signum => "signum" | F_floor => "floor" | F_atan2 => "atan2" | F_powi => "powi" | F_powf => "powf"
  end.

(** join, utility/strings.h 90-104. *)
Definition join (sep : string) (l : list string) : string := String.concat sep l.
Definition arg0 (l : list string) : string := nth 0 l "".
Definition arg1 (l : list string) : string := nth 1 l "".

Section Print.
  Variable span : bool.                    (* cpp_matrix_type_behavior::generic_span *)
  Variable ftext : load_src -> string.     (* fmt::format("{}", x) of the double *)

  (** The call operator on call_std_function, cpp_code_generator.cc 246-287; a missing argument (x[0] of an empty
      vector) is the empty text. *)
  Definition std_text (f : std_fn) (l : list string) : string :=
    match f with
    | F_signum =>
        "(static_cast<Scalar>(0) < " ++ arg0 l ++ ") - (" ++ arg0 l ++ " < static_cast<Scalar>(0))"
    | F_floor => "static_cast<" ++ type_string NInt ++ ">(std::floor(" ++ arg0 l ++ "))"
    | F_atan2 => "std::atan2(" ++ arg0 l ++ ", " ++ arg1 l ++ ")"
    | F_powi | F_powf => "std::pow(" ++ arg0 l ++ ", " ++ arg1 l ++ ")"
    | _ => "std::" ++ function_string f ++ "(" ++ arg0 l ++ ")"
    end.
  (** The call operators of cpp_code_generator.cc, 180-412. *)
  Fixpoint cpp_text (e : ast) : string :=
    match e with
    | AVar s => s
    | AArg s m => if m && span then "_" ++ s else s
    | AElem a r c => cpp_text a ++ "(" ++ dec_nat r ++ ", " ++ dec_nat c ++ ")"
    | AField a f => cpp_text a ++ "." ++ f
    | AInt z => dec z
    | AFloat l => "static_cast<Scalar>(" ++ ftext l ++ ")"
    | ABool b => if b then "true" else "false"
    | ASym c => "static_cast<Scalar>(" ++ constant_string c ++ ")"
    | AAdd l => join " + " (map cpp_text l)
    | AMul l => join " * " (map cpp_text l)
    | ADiv a b => cpp_text a ++ " / " ++ cpp_text b
    | ANeg a => "-" ++ cpp_text a
    | ACompare r a b => cpp_text a ++ " " ++ relational_string r ++ " " ++ cpp_text b
    | ATernary c a b => cpp_text c ++ " ? " ++ cpp_text a ++ " : " ++ cpp_text b
    | ACast t a => "static_cast<" ++ type_string t ++ ">(" ++ cpp_text a ++ ")"
    | AStd f l => std_text f (map cpp_text l)
    | ACall f float l =>
        if float then "static_cast<Scalar>(" ++ f ++ "(" ++ join ", " (map cpp_text l) ++ "))"
        else f ++ "(" ++ join ", " (map cpp_text l) ++ ")"
    | AParen a => "(" ++ cpp_text a ++ ")"
    end.
End Print.
