(** What Rust computes for an expression, and the syntax trees whose Rust text is read as they are meant. *)
From Coq Require Import String Ascii List Arith ZArith Bool.
From Verif Require Import Outcome IrModel AstModel CppSpec AstSpec RustSpec.
Import ListNotations.
Open Scope string_scope.
Open Scope nat_scope.

(** Names, and texts that are one number. *)
Definition rs_name (s : string) : Prop :=
  match s with
  | EmptyString => False
  | String c t => is_letter c = true /\ all_chars is_word_char t = true /\ is_in s rs_keywords = false
  end.
Fixpoint rs_one_token (w s : string) : bool :=
  match s with EmptyString => true | String c t => rs_extends w c && rs_one_token (snoc w c) t end.
Definition rs_number (s : string) : Prop :=
  match s with EmptyString => False | String c t => is_digit c = true /\ rs_one_token (String c "") t = true end.

Definition rs_type_name (t : numeric) : string := match t with NBool => "bool" | NInt => "i64" | NFloat => "f64" end.
(** The methods of f64. *)
Definition rs_method_name (f : std_fn) : string :=
  match f with
  | F_cos => "cos" | F_sin => "sin" | F_tan => "tan" | F_acos => "acos" | F_asin => "asin" | F_atan => "atan"
  | F_cosh => "cosh" | F_sinh => "sinh" | F_tanh => "tanh" | F_acosh => "acosh" | F_asinh => "asinh"
  | F_atanh => "atanh" | F_log => "ln" | F_exp => "exp" | F_sqrt => "sqrt" | F_abs => "abs" | F_signum => "signum"
  | F_floor => "floor" | F_atan2 => "atan2" | F_powi => "powi" | F_powf => "powf"
  end.
Definition rs_operator (r : rel_op) : string := match r with RLt => "<" | RLe => "<=" | REq => "==" end.

(** The operators and methods compute what the generator uses them for, literals are read as written, and a borrowed
    value is as good as the value.  The elements of an argument are read with [get], those of anything else by index. *)
Record rs_faithful (ftext : load_src -> string) (R : rust) (M : meaning (RV R)) : Prop := {
  s_var : forall s, r_id R [s] = m_var M s;
  s_arg : forall s m, r_id R [s] = m_arg M s m;
  s_get : forall v r c, r_method R v "get" [r_num R (dec_nat r); r_num R (dec_nat c)] = m_elem M v r c;
  s_index : forall v r c, r_index R v (r_tuple R [r_num R (dec_nat r); r_num R (dec_nat c)]) = m_elem M v r c;
  s_field : forall v f, r_field R v f = m_field M v f;
  s_int : forall z, (0 <= z < two63)%Z -> r_num R (dec z ++ "i64") = m_int M z;
  s_minus_int : forall z, (0 < z <= two63)%Z -> r_un R "-" (r_num R (dec z ++ "i64")) = m_int M (- z);
  s_float : forall l s, ftext l = s -> rs_number (s ++ "f64") -> r_num R (s ++ "f64") = m_float M l;
  s_minus_float : forall l s, ftext l = ("-" ++ s)%string -> rs_number (s ++ "f64") ->
    r_un R "-" (r_num R (s ++ "f64")) = m_float M l;
  s_bool : forall b, r_bool R b = m_bool M b;
  s_e : r_id R ["std"; "f64"; "consts"; "E"] = m_sym M SEuler;
  s_pi : r_id R ["std"; "f64"; "consts"; "PI"] = m_sym M SPi;
  s_add : forall a b, r_bin R "+" a b = m_add M a b;
  s_mul : forall a b, r_bin R "*" a b = m_mul M a b;
  s_div : forall a b, r_bin R "/" a b = m_div M a b;
  s_neg : forall a, r_un R "-" a = m_neg M a;
  s_cmp : forall r a b, r_bin R (rs_operator r) a b = m_cmp M r a b;
  s_cond : forall c a b, r_if R c a b = m_cond M c a b;
  s_cast : forall t a, r_as R a [rs_type_name t] = m_cast M t a;
  s_std1 : forall f a, f <> F_signum -> f <> F_floor -> arguments f = 1 ->
    r_method R a (rs_method_name f) [] = m_std M f [a];
  s_std2 : forall f a b, arguments f = 2 -> r_method R a (rs_method_name f) [b] = m_std M f [a; b];
  s_floor : forall a, r_as R (r_method R a "floor" []) ["i64"] = m_std M F_floor [a];
  s_signum : forall a,
    r_bin R "-" (r_as R (r_bin R "<" (r_num R "0.0f64") a) ["i64"]) (r_as R (r_bin R "<" a (r_num R "0.0f64")) ["i64"]) =
    m_std M F_signum [a];
  s_borrow : forall v, r_un R "&" v = v;
  s_ext : forall f l, r_call R (r_id R [f]) l = m_ext M f false l;
  s_ext_float : forall f l, r_as R (r_call R (r_id R [f]) l) ["f64"] = m_ext M f true l
}.

(** ** The trees *)
Definition minus_sign (s : string) : bool := match s with String c _ => Ascii.eqb c "-" | _ => false end.
(** Trees whose text can be followed by a dot or an opening bracket. *)
Definition rs_object (e : ast) : bool :=
  match e with AVar _ | AArg _ _ | AElem _ _ _ | AField _ _ | AParen _ | ACall _ false _ => true | _ => false end.
(** Does the text end with the type of a cast? *)
Fixpoint ends_type (e : ast) : bool :=
  match e with
  | ACast _ _ | AStd F_floor _ | AStd F_signum _ | ACall _ true _ => true
  | AAdd l | AMul l => last (map ends_type l) false
  | ADiv _ b => ends_type b
  | _ => false
  end.
Section Fits.
  Variable ftext : load_src -> string.
  Variable borrows : string -> nat -> bool.
  (** How tightly the text of a tree holds together, by the levels of the grammar. *)
  Definition rs_level (e : ast) : nat :=
    match e with
    | ACompare _ _ _ => 0
    | AAdd (_ :: _ :: _) | AStd F_signum _ => 1
    | AMul (_ :: _ :: _) | ADiv _ _ => 2
    | ACast _ _ | AStd F_floor _ | ACall _ true _ => 3
    | ANeg _ => 4
    | AInt z => if (z <? 0)%Z then 4 else 5
    | AFloat l => if minus_sign (ftext l) then 4 else 5
    | _ => 5
    end.
  (** The operands of every operator hold together at least as tightly as the grammar asks for there, what is compared
      with zero by signum does not end with a type, and names and numbers are well formed. *)
  Inductive rs_fits : ast -> Prop :=
  | rf_var s : rs_name s -> rs_fits (AVar s)
  | rf_arg s m : rs_name s -> rs_fits (AArg s m)
  | rf_elem a r c : rs_fits a -> rs_object a = true -> rs_fits (AElem a r c)
  | rf_field a f : rs_fits a -> rs_object a = true -> rs_name f -> rs_fits (AField a f)
  | rf_int z : (- two63 <= z < two63)%Z -> rs_fits (AInt z)
  | rf_float l s : rs_number (s ++ "f64") -> ftext l = s \/ ftext l = ("-" ++ s)%string -> rs_fits (AFloat l)
  | rf_bool b : rs_fits (ABool b)
  | rf_sym c : rs_fits (ASym c)
  | rf_add a b t :
      rs_fits a -> 1 <= rs_level a -> Forall rs_fits (b :: t) -> Forall (fun x => 2 <= rs_level x) (b :: t) ->
      rs_fits (AAdd (a :: b :: t))
  | rf_mul a b t :
      rs_fits a -> 2 <= rs_level a -> Forall rs_fits (b :: t) -> Forall (fun x => 3 <= rs_level x) (b :: t) ->
      rs_fits (AMul (a :: b :: t))
  | rf_div a b : rs_fits a -> 2 <= rs_level a -> rs_fits b -> 3 <= rs_level b -> rs_fits (ADiv a b)
  | rf_neg a : rs_fits a -> 4 <= rs_level a -> rs_fits (ANeg a)
  | rf_compare r a b : rs_fits a -> rs_fits b -> rs_fits (ACompare r a b)
  | rf_ternary c a b : rs_fits c -> rs_fits a -> rs_fits b -> rs_fits (ATernary c a b)
  | rf_cast t a : rs_fits a -> rs_fits (ACast t a)
  | rf_std f l : Forall rs_fits l -> length l = arguments f ->
      (f = F_signum -> Forall (fun a => 1 <= rs_level a /\ ends_type a = false) l) -> rs_fits (AStd f l)
  | rf_call f b l : rs_name f -> Forall rs_fits l ->
      (forall i a, nth_error l i = Some a -> borrows f i = true -> 4 <= rs_level a) -> rs_fits (ACall f b l)
  | rf_paren a : rs_fits a -> rs_fits (AParen a).
End Fits.

(** ** Graphs *)
Definition is_cast_op (o : op) : bool := match o with OCast _ | OCallStd F_floor => true | _ => false end.
(** Does the operation return a floating point number that is written with a cast? *)
Definition float_ext (g : graph) (n : name) : bool :=
  match op_of g n with OCallExt _ => float_scalar (ty_of g n) | _ => false end.
(** Operations that may stand, without a variable of their own, as operands of [o]: no signs inside sums (but for the
    first operand) and products, no casts behind a minus sign, and no copies. *)
Definition rs_operand_ok (g : graph) (o : op) (first : bool) (a : name) : bool :=
  let x := op_of g a in
  match o with
  | OAdd => negb (is_copy x) && (first || negb (is_signum x))
  | OMul | ODiv => negb (is_copy x) && negb (is_signum x)
  | ONeg => negb (is_copy x) && negb (is_signum x) && negb (is_cast_op x) && negb (float_ext g a)
  | OCallStd F_signum => negb (is_copy x) && negb (is_compare x)
  | _ => true
  end.
Definition rs_access_ok (a : access) : Prop := match a with AcElem _ _ => True | AcField f => rs_name f end.
Record rs_names_ok (N : names) : Prop := {
  rn_arg : forall i s t, n_args N i = Some (s, t) ->
    rs_name s /\ match t with ArgStruct elems => Forall (Forall rs_access_ok) elems | _ => True end;
  rn_var : forall v, rs_name (n_vars N v)
}.
Definition rs_load_ok (ftext : load_src -> string) (l : load_src) : Prop :=
  match l with
  | LInt z => (- two63 <= z < two63)%Z
  | LRat _ _ | LFloat _ => exists s, rs_number (s ++ "f64") /\ (ftext l = s \/ ftext l = ("-" ++ s)%string)
  | _ => True
  end.
(** Operations whose text ends with the type of a cast: casts, floors, signs and external functions, and the sums,
    products and quotients that have one of these last and not in parentheses. *)
Section Last.
  Variable g : graph.
  Variable d : list name.
  Inductive type_last : name -> Prop :=
  | tl_cast n : is_cast_op (op_of g n) = true -> type_last n
  | tl_sign n : is_signum (op_of g n) = true -> type_last n
  | tl_float n : float_ext g n = true -> type_last n
  | tl_chain n l a :
      match op_of g n with OAdd | OMul | ODiv => True | _ => False end -> args g n = (l ++ [a])%list -> declared d a = false ->
      operation_precedence (op_of g n) < operation_precedence (op_of g a) -> type_last a -> type_last n.
End Last.
Record rs_printable (ftext : load_src -> string) (borrows : string -> nat -> bool) (g : graph) (d : list name) (v : name) : Prop := {
  rk_text : match op_of g v with OCallExt f => rs_name f | OLoad l => rs_load_ok ftext l | _ => True end;
  rk_first : forall a r, args g v = a :: r -> declared d a = false -> rs_operand_ok g (op_of g v) true a = true;
  rk_rest : forall a b r, args g v = a :: r -> In b r -> declared d b = false -> rs_operand_ok g (op_of g v) false b = true;
  rk_sign : forall a, op_of g v = OCallStd F_signum -> In a (args g v) -> declared d a = false -> ~ type_last g d a;
  rk_borrow : forall f i a, op_of g v = OCallExt f -> borrows f i = true -> nth_error (args g v) i = Some a ->
    declared d a = false -> match op_of g a with OLoad _ | ONeg => True | OCallExt _ => float_ext g a = false | _ => False end
}.
