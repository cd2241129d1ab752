(** The Python text of the expressions of the syntax tree.
    /repo/components/core/wf/code_generation/python_code_generator.cc.

    Modelled: the expressions of AstModel.v, for the three libraries that the generator writes code for.  Not modelled:
    statements and signatures, constructors of matrices and structs, calls that return a matrix, and overrides of the
    formatters that a user installs from Python. *)
From Coq Require Import String Ascii List Arith ZArith Bool.
From Verif Require Import IrModel AstModel.
Import ListNotations.
Open Scope string_scope.

(** python_generator_target and python_generator_float_width, python_code_generator.h. *)
Inductive py_target := Numpy | Torch | Jax.
Inductive py_width := Float32 | Float64.

(** python_string_from_float_width, python_code_generator.cc 14-25. *)
Definition width_string (w : py_width) : string := match w with Float32 => "float32" | Float64 => "float64" end.
(** python_string_from_cast_destination_type, 27-42. *)
Definition dtype_string (w : py_width) (t : numeric) : string :=
  match t with NBool => "bool" | NInt => "int32" | NFloat => width_string w end.
(** python_module_prefix_from_target, 43-57. *)
Definition module_string (T : py_target) : string := match T with Numpy => "np" | Torch => "th" | Jax => "jnp" end.

(** format_scalar_type_cast, 85-99. *)
Definition py_cast (T : py_target) (w : py_width) (arg : string) (t : numeric) : string :=
  match T with
  | Torch => module_string T ++ ".asarray(" ++ arg ++ ", dtype=" ++ module_string T ++ "." ++ dtype_string w t ++ ")"
  | _ => module_string T ++ "." ++ dtype_string w t ++ "(" ++ arg ++ ")"
  end.

(** python_string_from_std_math_function, 361-408. *)
Definition py_function (f : std_fn) : string :=
  match f with
  | F_acos => "arccos"
  | F_asin => "arcsin"
  | F_atan => "arctan"
  | F_acosh => "arccosh"
  | F_asinh => "arcsinh"
  | F_atanh => "arctanh"
  | F_signum => "sign"
  | F_atan2 => "arctan2"
  | F_powi | F_powf => "power"
  | _ => function_string f
  end.

Section Print.
  Variable T : py_target.
  Variable w : py_width.
  Variable ftext : load_src -> string.   (* fmt::format("{}", x) of the double *)

  (** The call operators on expressions, 284-286, 331-333, 346-359, 410-418, 425-428, 454-489, 513-515, 522-538. *)
  Fixpoint py_text (e : ast) : string :=
    match e with
    | AVar s => s
    | AArg s _ => s
    | AElem a r c => py_text a ++ "[" ++ dec_nat r ++ ", " ++ dec_nat c ++ "]"
    | AField a f => py_text a ++ "." ++ f
    | AInt z => dec z
    | AFloat l => match T with Torch => ftext l | _ => py_cast T w (ftext l) NFloat end
    | ABool b => if b then "True" else "False"
    | ASym c =>
        let constant := module_string T ++ "." ++ match c with SEuler => "e" | SPi => "pi" end in
        match T with Torch => constant | _ => py_cast T w constant NFloat end
    | AAdd l => join " + " (map py_text l)
    | AMul l => join " * " (map py_text l)
    | ADiv a b => py_text a ++ " / " ++ py_text b
    | ANeg a => "-" ++ py_text a
    | ACompare r a b => py_text a ++ " " ++ relational_string r ++ " " ++ py_text b
    | ATernary c a b =>
        module_string T ++ ".where(" ++ py_text c ++ ", " ++ py_text a ++ ", " ++ py_text b ++ ")"
    | ACast t a => py_cast T w (py_text a) t
    | AStd f l => module_string T ++ "." ++ py_function f ++ "(" ++ join ", " (map py_text l) ++ ")"
    | ACall f _ l => f ++ "(" ++ join ", " (map py_text l) ++ ")"
    | AParen a => "(" ++ py_text a ++ ")"
    end.
End Print.
