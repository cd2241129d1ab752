(** What Python computes for an expression, and the syntax trees whose Python text is read as they are meant. *)
From Coq Require Import String Ascii List Arith ZArith Bool.
From Verif Require Import Outcome IrModel AstModel CppSpec AstSpec PySpec PyCodeModel.
From Verif Require PlainSpec.
Import ListNotations.
Open Scope string_scope.
Open Scope nat_scope.

(** ** Expressions *)
(** What names, constants, operators, calls, attributes and subscripts stand for. *)
Record python := {
  PV : Type;
  p_id : string -> PV; p_num : string -> PV; p_bool : bool -> PV; p_un : string -> PV -> PV;
  p_bin : string -> PV -> PV -> PV; p_call : PV -> list PV -> PV; p_dot : PV -> string -> PV;
  p_sub : PV -> list PV -> PV; p_key : string -> PV -> PV
}.
Section Eval.
  Variable P : python.
  Fixpoint py_eval (e : pexp) : PV P :=
    match e with
    | PId s => p_id P s
    | PNum s => p_num P s
    | PBool b => p_bool P b
    | PUn o a => p_un P o (py_eval a)
    | PBin o a b => p_bin P o (py_eval a) (py_eval b)
    | PCall f l => p_call P (py_eval f) (map py_eval l)
    | PDot a f => p_dot P (py_eval a) f
    | PSub a l => p_sub P (py_eval a) (map py_eval l)
    | PKey s a => p_key P s (py_eval a)
    end.
End Eval.

(** ** The libraries *)
(** import numpy as np, import torch as th, import jax.numpy as jnp. *)
Definition module_name (T : py_target) : string := match T with Numpy => "np" | Torch => "th" | Jax => "jnp" end.
(** Their names for functions and types. *)
Definition function_name (f : std_fn) : string :=
  match f with
  | F_cos => "cos" | F_sin => "sin" | F_tan => "tan" | F_acos => "arccos" | F_asin => "arcsin" | F_atan => "arctan"
  | F_cosh => "cosh" | F_sinh => "sinh" | F_tanh => "tanh" | F_acosh => "arccosh" | F_asinh => "arcsinh"
  | F_atanh => "arctanh" | F_log => "log" | F_exp => "exp" | F_sqrt => "sqrt" | F_abs => "abs" | F_signum => "sign"
  | F_floor => "floor" | F_atan2 => "arctan2" | F_powi | F_powf => "power"
  end.
Definition type_name (w : py_width) (t : numeric) : string :=
  match t, w with NBool, _ => "bool" | NInt, _ => "int32" | NFloat, Float32 => "float32" | NFloat, Float64 => "float64" end.
Definition constant_name (c : sym_const) : string := match c with SEuler => "e" | SPi => "pi" end.

Section Library.
  Variables (T : py_target) (w : py_width) (P : python).
  Definition member (s : string) : PV P := p_dot P (p_id P (module_name T)) s.
  (** numpy and jax call the type, torch is given it as the keyword [dtype]. *)
  Definition convert (t : numeric) (v : PV P) : PV P :=
    match T with
    | Torch => p_call P (member "asarray") [v; p_key P "dtype" (member (type_name w t))]
    | _ => p_call P (member (type_name w t)) [v]
    end.
  (** Constants of the library and literals are converted, except for torch. *)
  Definition constant (v : PV P) : PV P := match T with Torch => v | _ => convert NFloat v end.
End Library.

(** Numbers and names that Python takes as one word; names have no dollar sign. *)
Definition py_number := PlainSpec.py_number.
Definition py_name (s : string) : Prop :=
  match s with
  | EmptyString => False
  | String c t => is_letter c = true /\ all_chars is_word_char t = true /\ is_in s py_keywords = false
  end.

(** Python and the library compute what the generator uses them for; constants are read as written. *)
Record py_faithful (T : py_target) (w : py_width) (ftext : load_src -> string) (P : python) (M : meaning (PV P)) : Prop := {
  y_var : forall s, p_id P s = m_var M s;
  y_arg : forall s m, p_id P s = m_arg M s m;
  y_elem : forall v r c, p_sub P v [p_num P (dec_nat r); p_num P (dec_nat c)] = m_elem M v r c;
  y_field : forall v f, p_dot P v f = m_field M v f;
  y_int : forall z, (0 <= z)%Z -> p_num P (dec z) = m_int M z;
  y_minus_int : forall z, (0 < z)%Z -> p_un P "-" (m_int M z) = m_int M (- z);
  y_float : forall l s, ftext l = s -> py_number s -> constant T w P (p_num P s) = m_float M l;
  y_minus_float : forall l s, ftext l = ("-" ++ s)%string -> py_number s ->
    constant T w P (p_un P "-" (p_num P s)) = m_float M l;
  y_bool : forall b, p_bool P b = m_bool M b;
  y_sym : forall c, constant T w P (member T P (constant_name c)) = m_sym M c;
  y_add : forall a b, p_bin P "+" a b = m_add M a b;
  y_mul : forall a b, p_bin P "*" a b = m_mul M a b;
  y_div : forall a b, p_bin P "/" a b = m_div M a b;
  y_neg : forall a, p_un P "-" a = m_neg M a;
  y_lt : forall a b, p_bin P "<" a b = m_cmp M RLt a b;
  y_le : forall a b, p_bin P "<=" a b = m_cmp M RLe a b;
  y_eq : forall a b, p_bin P "==" a b = m_cmp M REq a b;
  y_cond : forall c a b, p_call P (member T P "where") [c; a; b] = m_cond M c a b;
  y_cast : forall t a, convert T w P t a = m_cast M t a;
  y_std : forall f l, p_call P (member T P (function_name f)) l = m_std M f l;
  y_ext : forall f b l, p_call P (p_id P f) l = m_ext M f b l
}.

(** ** The trees *)
(** How tightly the text of a tree holds together, by the levels of the grammar; torch takes literals as they are. *)
Definition bare_minus (T : py_target) (s : string) : bool :=
  match T, s with Torch, String c _ => Ascii.eqb c "-" | _, _ => false end.
Section Fits.
  Variable T : py_target.
  Variable ftext : load_src -> string.
  Definition py_level (e : ast) : nat :=
    match e with
    | ACompare _ _ _ => 0
    | AAdd (_ :: _ :: _) => 1
    | AMul (_ :: _ :: _) | ADiv _ _ => 2
    | ANeg _ => 3
    | AInt z => if (z <? 0)%Z then 3 else 5
    | AFloat l => if bare_minus T (ftext l) then 3 else 5
    | _ => 5
    end.
  (** The operands of every operator hold together at least as tightly as the grammar asks for there, and names and
      numbers are well formed. *)
  Inductive py_fits : ast -> Prop :=
  | yf_var s : py_name s -> py_fits (AVar s)
  | yf_arg s m : py_name s -> py_fits (AArg s m)
  | yf_elem a r c : py_fits a -> object a = true -> py_fits (AElem a r c)
  | yf_field a f : py_fits a -> object a = true -> py_name f -> py_fits (AField a f)
  | yf_int z : py_fits (AInt z)
  | yf_float l s : py_number s -> ftext l = s \/ ftext l = ("-" ++ s)%string -> py_fits (AFloat l)
  | yf_bool b : py_fits (ABool b)
  | yf_sym c : py_fits (ASym c)
  | yf_add a b t :
      py_fits a -> 1 <= py_level a -> Forall py_fits (b :: t) -> Forall (fun x => 2 <= py_level x) (b :: t) ->
      py_fits (AAdd (a :: b :: t))
  | yf_mul a b t :
      py_fits a -> 2 <= py_level a -> Forall py_fits (b :: t) -> Forall (fun x => 3 <= py_level x) (b :: t) ->
      py_fits (AMul (a :: b :: t))
  | yf_div a b : py_fits a -> 2 <= py_level a -> py_fits b -> 3 <= py_level b -> py_fits (ADiv a b)
  | yf_neg a : py_fits a -> 3 <= py_level a -> py_fits (ANeg a)
  | yf_compare r a b : py_fits a -> 1 <= py_level a -> py_fits b -> 1 <= py_level b -> py_fits (ACompare r a b)
  | yf_ternary c a b : py_fits c -> py_fits a -> py_fits b -> py_fits (ATernary c a b)
  | yf_cast t a : py_fits a -> py_fits (ACast t a)
  | yf_std f l : Forall py_fits l -> py_fits (AStd f l)
  | yf_call f b l : py_name f -> Forall py_fits l -> py_fits (ACall f b l)
  | yf_paren a : py_fits a -> py_fits (AParen a).
End Fits.

(** ** Graphs *)
(** Operations [x] whose text may stand, without a variable of its own, as an operand of [o]: no comparison of
    comparisons, and no copies as operands of operators. *)
Definition py_operand_ok (o x : op) : bool :=
  match o with
  | OAdd | OMul | ODiv | ONeg => negb (is_copy x)
  | OCompare _ => negb (is_copy x) && negb (is_compare x)
  | _ => true
  end.
Definition py_access_ok (a : access) : Prop := match a with AcElem _ _ => True | AcField f => py_name f end.
Record py_names_ok (N : names) : Prop := {
  yn_arg : forall i s t, n_args N i = Some (s, t) ->
    py_name s /\ match t with ArgStruct elems => Forall (Forall py_access_ok) elems | _ => True end;
  yn_var : forall v, py_name (n_vars N v)
}.
Definition py_load_ok (ftext : load_src -> string) (l : load_src) : Prop :=
  match l with
  | LRat _ _ | LFloat _ => exists s, py_number s /\ (ftext l = s \/ ftext l = ("-" ++ s)%string)
  | _ => True
  end.
Record py_printable (ftext : load_src -> string) (g : graph) (d : list name) (v : name) : Prop := {
  yk_text : match op_of g v with OCallExt f => py_name f | OLoad l => py_load_ok ftext l | _ => True end;
  yk_args : forall a, In a (args g v) -> declared d a = false -> py_operand_ok (op_of g v) (op_of g a) = true
}.
