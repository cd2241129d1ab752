(** The Rust text of the expressions of the syntax tree.
    /repo/components/core/wf/code_generation/rust_code_generator.cc.

    Modelled: the expressions of AstModel.v.  Not modelled: statements and signatures, constructors of matrices and
    structs, and overrides of the formatters that a user installs from Python. *)
From Coq Require Import String Ascii List Arith ZArith Bool.
From Verif Require Import IrModel AstModel.
Import ListNotations.
Open Scope string_scope.

(** rust_string_from_numeric_type, rust_code_generator.cc 12-22. *)
Definition rs_type (t : numeric) : string := match t with NBool => "bool" | NInt => "i64" | NFloat => "f64" end.
(** rust_string_for_symbolic_constant, 338-347. *)
Definition rs_constant (c : sym_const) : string :=
  match c with SEuler => "std::f64::consts::E" | SPi => "std::f64::consts::PI" end.

(** The call operator on call_std_function, 217-253; a missing argument (x[0] of an empty vector) is the empty text. *)
Definition rs_std (f : std_fn) (l : list string) : string :=
  match f with
  | F_log => "(" ++ arg0 l ++ ").ln()"
  | F_signum => "(0.0f64 < " ++ arg0 l ++ ") as i64 - (" ++ arg0 l ++ " < 0.0f64) as i64"
  | F_floor => "(" ++ arg0 l ++ ").floor() as i64"
  | F_atan2 | F_powi | F_powf => "(" ++ arg0 l ++ ")." ++ function_string f ++ "(" ++ arg1 l ++ ")"
  | _ => "(" ++ arg0 l ++ ")." ++ function_string f ++ "()"
  end.

(** join_enumerate, utility/strings.h: [f] is given the index. *)
Fixpoint map_from {A B : Type} (f : nat -> A -> B) (i : nat) (l : list A) : list B :=
  match l with [] => [] | a :: t => f i a :: map_from f (S i) t end.

Section Print.
  Variable ftext : load_src -> string.        (* fmt::format("{}", x) of the double *)
  Variable custom : string -> bool.           (* arg.is_custom_type() of the argument with this name *)
  Variable borrows : string -> nat -> bool.   (* the parameter of the external function is a matrix or of a custom type *)

  (** is_get_argument_with_custom_type, 186-191. *)
  Definition custom_argument (e : ast) : bool := match e with AArg s _ => custom s | _ => false end.
  (** The arguments of an external call, 195-207, from the trees and their texts. *)
  Definition rs_borrow (f : string) (i : nat) (p : ast * string) : string :=
    if custom_argument (fst p) then snd p else if borrows f i then "&" ++ snd p else snd p.

  (** The call operators on expressions, 148-150, 172-174, 193-259, 270-274, 308-336, 349-355, 368-381. *)
  Fixpoint rs_text (e : ast) : string :=
    match e with
    | AVar s => s
    | AArg s _ => s
    | AElem a r c =>
        match a with
        | AArg _ _ => rs_text a ++ ".get(" ++ dec_nat r ++ ", " ++ dec_nat c ++ ")"
        | _ => rs_text a ++ "[(" ++ dec_nat r ++ ", " ++ dec_nat c ++ ")]"
        end
    | AField a f => rs_text a ++ "." ++ f
    | AInt z => dec z ++ "i64"
    | AFloat l => ftext l ++ "f64"
    | ABool b => if b then "true" else "false"
    | ASym c => rs_constant c
    | AAdd l => join " + " (map rs_text l)
    | AMul l => join " * " (map rs_text l)
    | ADiv a b => rs_text a ++ " / " ++ rs_text b
    | ANeg a => "-" ++ rs_text a
    | ACompare r a b => "(" ++ rs_text a ++ ") " ++ relational_string r ++ " (" ++ rs_text b ++ ")"
    | ATernary c a b => "if " ++ rs_text c ++ " { " ++ rs_text a ++ " } else { " ++ rs_text b ++ " }"
    | ACast t a => "(" ++ rs_text a ++ ") as " ++ rs_type t
    | AStd f l => rs_std f (map rs_text l)
    | ACall f float l =>
        f ++ "(" ++ join ", " (map_from (rs_borrow f) 0 (map (fun e => (e, rs_text e)) l)) ++ ")" ++
        (if float then " as f64" else "")
    | AParen a => "(" ++ rs_text a ++ ")"
    end.
End Print.
