(** What the syntax trees of the generator stand for, and the trees whose text C++ reads as they are meant. *)
From Coq Require Import String Ascii List Arith ZArith Bool.
From Verif Require Import Outcome IrModel AstModel CppSpec.
Import ListNotations.
Open Scope string_scope.
Open Scope nat_scope.

(** What the operations, constants and names stand for. *)
Record meaning (V : Type) := {
  m_var : string -> V; m_arg : string -> bool -> V; m_elem : V -> nat -> nat -> V; m_field : V -> string -> V;
  m_int : Z -> V; m_float : load_src -> V; m_bool : bool -> V; m_sym : sym_const -> V;
  m_add : V -> V -> V; m_mul : V -> V -> V; m_div : V -> V -> V; m_neg : V -> V;
  m_cmp : rel_op -> V -> V -> V; m_cond : V -> V -> V -> V; m_cast : numeric -> V -> V;
  m_std : std_fn -> list V -> V; m_ext : string -> bool -> list V -> V
}.
Arguments m_var {V}. Arguments m_arg {V}. Arguments m_elem {V}. Arguments m_field {V}. Arguments m_int {V}.
Arguments m_float {V}. Arguments m_bool {V}. Arguments m_sym {V}. Arguments m_add {V}. Arguments m_mul {V}.
Arguments m_div {V}. Arguments m_neg {V}. Arguments m_cmp {V}. Arguments m_cond {V}. Arguments m_cast {V}.
Arguments m_std {V}. Arguments m_ext {V}.

(** Sums and products go from left to right. *)
Fixpoint chain {V : Type} (f : V -> V -> V) (a : V) (l : list V) : V :=
  match l with [] => a | b :: t => chain f (f a b) t end.

Section Value.
  Context {V : Type} (M : meaning V).
  Fixpoint value_of (e : ast) : V :=
    match e with
    | AVar s => m_var M s
    | AArg s m => m_arg M s m
    | AElem a r c => m_elem M (value_of a) r c
    | AField a f => m_field M (value_of a) f
    | AInt z => m_int M z
    | AFloat l => m_float M l
    | ABool b => m_bool M b
    | ASym c => m_sym M c
    | AAdd l => match l with [] => m_int M 0 | a :: t => chain (m_add M) (value_of a) (map value_of t) end
    | AMul l => match l with [] => m_int M 1 | a :: t => chain (m_mul M) (value_of a) (map value_of t) end
    | ADiv a b => m_div M (value_of a) (value_of b)
    | ANeg a => m_neg M (value_of a)
    | ACompare r a b => m_cmp M r (value_of a) (value_of b)
    | ATernary c a b => m_cond M (value_of c) (value_of a) (value_of b)
    | ACast t a => m_cast M t (value_of a)
    | AStd f l => m_std M f (map value_of l)
    | ACall f b l => m_ext M f b (map value_of l)
    | AParen a => value_of a
    end.
End Value.

(** Names that C++ takes as identifiers, and texts it takes as one number. *)
Fixpoint all_chars (p : ascii -> bool) (s : string) : bool :=
  match s with EmptyString => true | String c t => p c && all_chars p t end.
Definition identifier (s : string) : Prop :=
  match s with
  | EmptyString => False
  | String c t => is_letter c = true /\ all_chars is_word_char t = true /\ is_in s keywords = false
  end.
Fixpoint one_token (w s : string) : bool :=
  match s with EmptyString => true | String c t => extends w c && one_token (snoc w c) t end.
Definition number (s : string) : Prop :=
  match s with EmptyString => False | String c t => is_digit c = true /\ one_token (String c "") t = true end.

Definition scalar_t : list string := ["Scalar"].
Definition type_path (t : numeric) : list string :=
  match t with NBool => ["bool"] | NInt => ["std"; "int64_t"] | NFloat => scalar_t end.
Definition two63 : Z := 9223372036854775808.

(** The C++ operators and library functions compute what the generator uses them for; constants are read as written.
    [floor] and [signum] are the ones without a library function of their own. *)
Record faithful (span : bool) (ftext : load_src -> string) (C : cpp) (M : meaning (V C)) : Prop := {
  f_var : forall s, c_id C [s] = m_var M s;
  f_arg : forall s m, c_id C [if m && span then "_" ++ s else s]%string = m_arg M s m;
  f_elem : forall v r c, c_call C v [c_num C (dec_nat r); c_num C (dec_nat c)] = m_elem M v r c;
  f_field : forall v f, c_dot C v f = m_field M v f;
  f_int : forall z, (0 <= z < two63)%Z -> c_num C (dec z) = m_int M z;
  f_minus_int : forall z, (0 < z < two63)%Z -> c_un C "-" (m_int M z) = m_int M (- z);
  f_float : forall l s, ftext l = s -> number s -> c_cast C scalar_t (c_num C s) = m_float M l;
  f_minus_float : forall l s, ftext l = ("-" ++ s)%string -> number s ->
    c_cast C scalar_t (c_un C "-" (c_num C s)) = m_float M l;
  f_bool : forall b, c_bool C b = m_bool M b;
  f_sym : forall c, c_cast C scalar_t (c_id C [constant_string c]) = m_sym M c;
  f_add : forall a b, c_bin C "+" a b = m_add M a b;
  f_mul : forall a b, c_bin C "*" a b = m_mul M a b;
  f_div : forall a b, c_bin C "/" a b = m_div M a b;
  f_neg : forall a, c_un C "-" a = m_neg M a;
  f_cmp : forall r a b, c_bin C (relational_string r) a b = m_cmp M r a b;
  f_cond : forall c a b, c_cond C c a b = m_cond M c a b;
  f_cast : forall t a, c_cast C (type_path t) a = m_cast M t a;
  f_std1 : forall f a, f <> F_signum -> f <> F_floor -> f <> F_atan2 -> f <> F_powi -> f <> F_powf ->
    c_call C (c_id C ["std"; function_string f]) [a] = m_std M f [a];
  f_floor : forall a, c_cast C ["std"; "int64_t"] (c_call C (c_id C ["std"; "floor"]) [a]) = m_std M F_floor [a];
  f_atan2 : forall a b, c_call C (c_id C ["std"; "atan2"]) [a; b] = m_std M F_atan2 [a; b];
  f_powi : forall a b, c_call C (c_id C ["std"; "pow"]) [a; b] = m_std M F_powi [a; b];
  f_powf : forall a b, c_call C (c_id C ["std"; "pow"]) [a; b] = m_std M F_powf [a; b];
  f_signum : forall a,
    c_bin C "-" (c_bin C "<" (c_cast C scalar_t (c_num C "0")) a) (c_bin C "<" a (c_cast C scalar_t (c_num C "0"))) =
    m_std M F_signum [a];
  f_ext : forall f l, c_call C (c_id C [f]) l = m_ext M f false l;
  f_ext_float : forall f l, c_cast C scalar_t (c_call C (c_id C [f]) l) = m_ext M f true l
}.

(** How tightly the text of a tree holds together, by the levels of the grammar. *)
Definition level (e : ast) : nat :=
  match e with
  | ATernary _ _ _ => 0
  | ACompare REq _ _ => 3
  | ACompare _ _ _ => 4
  | AAdd (_ :: _ :: _) | AStd F_signum _ => 5
  | AMul (_ :: _ :: _) | ADiv _ _ => 6
  | ANeg _ => 7
  | AInt z => if (z <? 0)%Z then 7 else 8
  | _ => 8
  end.
(** Does the text begin with a minus sign? *)
Definition minus (e : ast) : bool :=
  match e with ANeg _ => true | AInt z => (z <? 0)%Z | _ => false end.
(** Trees whose text can be followed by a dot or an opening parenthesis. *)
Definition object (e : ast) : bool :=
  match e with AVar _ | AArg _ _ | AElem _ _ _ | AField _ _ | AParen _ | ACall _ _ _ => true | _ => false end.
Definition arguments (f : std_fn) : nat := match f with F_atan2 | F_powi | F_powf => 2 | _ => 1 end.

(** The operands of every operator hold together at least as tightly as the grammar asks for there, there is no minus
    sign behind a minus sign, and names and numbers are well formed. *)
Section Fits.
  Variable ftext : load_src -> string.
  Inductive fits : ast -> Prop :=
  | fit_var s : identifier s -> fits (AVar s)
  | fit_arg s m : identifier s -> fits (AArg s m)
  | fit_elem a r c : fits a -> object a = true -> fits (AElem a r c)
  | fit_field a f : fits a -> object a = true -> identifier f -> fits (AField a f)
  | fit_int z : (- two63 < z < two63)%Z -> fits (AInt z)
  | fit_float l s : number s -> ftext l = s \/ ftext l = ("-" ++ s)%string -> fits (AFloat l)
  | fit_bool b : fits (ABool b)
  | fit_sym c : fits (ASym c)
  | fit_add a b t :
      fits a -> 5 <= level a -> Forall fits (b :: t) -> Forall (fun x => 6 <= level x) (b :: t) -> fits (AAdd (a :: b :: t))
  | fit_mul a b t :
      fits a -> 6 <= level a -> Forall fits (b :: t) -> Forall (fun x => 7 <= level x) (b :: t) -> fits (AMul (a :: b :: t))
  | fit_div a b : fits a -> 6 <= level a -> fits b -> 7 <= level b -> fits (ADiv a b)
  | fit_neg a : fits a -> 7 <= level a -> minus a = false -> fits (ANeg a)
  | fit_compare r a b :
      fits a -> level (ACompare r a b) <= level a -> fits b -> S (level (ACompare r a b)) <= level b ->
      fits (ACompare r a b)
  | fit_ternary c a b : fits c -> 1 <= level c -> fits a -> fits b -> fits (ATernary c a b)
  | fit_cast t a : fits a -> fits (ACast t a)
  | fit_std f l : Forall fits l -> length l = arguments f ->
      (f = F_signum -> Forall (fun a => 5 <= level a) l) -> fits (AStd f l)
  | fit_call f b l : identifier f -> Forall fits l -> fits (ACall f b l)
  | fit_paren a : fits a -> fits (AParen a).
End Fits.

(** ** Values of the graph *)

(** What an operation computes from the values of its operands; [ty] is the type of its result. *)
Section Operation.
  Context {V : Type} (M : meaning V) (N : names).
  Definition access_value (v : V) (a : access) : V :=
    match a with AcElem r c => m_elem M v r c | AcField f => m_field M v f end.
  (** Element [i] of an argument: elements of matrices are counted row by row. *)
  Definition argument_value (s : string) (t : arg_type) (i : nat) : V :=
    match t with
    | ArgScalar => m_arg M s false
    | ArgMatrix rows cols => m_elem M (m_arg M s true) (i / cols) (i mod cols)
    | ArgStruct elems => fold_left access_value (nth i elems []) (m_arg M s false)
    end.
  Definition load_value (l : load_src) : option V :=
    match l with
    | LInt z => Some (m_int M z)
    | LRat _ _ | LFloat _ => Some (m_float M l)
    | LSym c => Some (m_sym M c)
    | LBool b => Some (m_bool M b)
    | LVar v => Some (m_var M (n_vars N v))
    | LArg a i => match n_args N a with Some (s, t) => Some (argument_value s t i) | None => None end
    | LCustomArg a => match n_args N a with Some (s, ArgMatrix _ _) => Some (m_arg M s true) | Some (s, _) => Some (m_arg M s false) | None => None end
    end.
  Definition operation_value (o : op) (ty : vtype) (l : list V) : option V :=
    match o, l with
    | OAdd, a :: t => Some (chain (m_add M) a t)
    | OMul, a :: t => Some (chain (m_mul M) a t)
    | ODiv, [a; b] => Some (m_div M a b)
    | ONeg, [a] => Some (m_neg M a)
    | OCompare r, [a; b] => Some (m_cmp M r a b)
    | OCond, [c; a; b] => Some (m_cond M c a b)
    | OCast t, [a] => Some (m_cast M t a)
    | OCopy, [a] => Some a
    | OCallStd f, l => Some (m_std M f l)
    | OCallExt f, l => Some (m_ext M f (match ty with TScalar NFloat => true | _ => false end) l)
    | OLoad l, _ => load_value l
    | _, _ => None
    end.
End Operation.

(** The values of a graph: those with a variable of their own are found in it, the others are computed from their
    operands. *)
Definition valuation {V : Type} (M : meaning V) (N : names) (g : graph) (d : list name) (E : name -> V) : Prop :=
  forall v, v < g_next g ->
    if declared d v then m_var M (variable_name (n_width N) v) = E v
    else forall x, operation_value M N (op_of g v) (ty_of g v) (map E (args g v)) = Some x -> E v = x.

(** Operations [x] whose text may stand, without a variable of its own, as an operand of [o]: no selects inside
    arithmetic and comparisons, signum only at the beginning of a sum, no minus behind a minus, no comparison of
    comparisons and no copies. *)
Definition negative_load (o : op) : bool := match o with OLoad (LInt z) => (z <? 0)%Z | _ => false end.
Definition is_signum (o : op) : bool := match o with OCallStd F_signum => true | _ => false end.
Definition is_cond (o : op) : bool := match o with OCond => true | _ => false end.
Definition is_neg (o : op) : bool := match o with ONeg => true | _ => false end.
Definition is_compare (o : op) : bool := match o with OCompare _ => true | _ => false end.
Definition operand_ok (o : op) (first : bool) (x : op) : bool :=
  match o with
  | OAdd => negb (is_cond x) && negb (is_copy x) && (first || negb (is_signum x))
  | OMul | ODiv => negb (is_cond x) && negb (is_copy x) && negb (is_signum x)
  | ONeg => negb (is_cond x) && negb (is_copy x) && negb (is_signum x) && negb (is_neg x) && negb (negative_load x)
  | OCompare _ => negb (is_cond x) && negb (is_copy x) && negb (is_compare x)
  | OCallStd F_signum => negb (is_cond x) && negb (is_copy x) && negb (is_compare x)
  | OCond => negb (is_copy x)
  | _ => true
  end.

(** The names the generator got and the constants in the program can be written in C++. *)
Definition access_ok (a : access) : Prop := match a with AcElem _ _ => True | AcField f => identifier f end.
Record names_ok (N : names) : Prop := {
  n_arg_ok : forall i s t, n_args N i = Some (s, t) ->
    identifier s /\ match t with ArgStruct elems => Forall (Forall access_ok) elems | _ => True end;
  n_var_ok : forall v, identifier (n_vars N v)
}.
Definition load_ok (ftext : load_src -> string) (l : load_src) : Prop :=
  match l with
  | LInt z => (- two63 < z < two63)%Z
  | LRat _ _ | LFloat _ => exists s, number s /\ (ftext l = s \/ ftext l = ("-" ++ s)%string)
  | _ => True
  end.
Record node_ok (g : graph) (v : name) : Prop := {
  k_args : forall a, In a (args g v) -> a < g_next g;
  k_sum : match op_of g v with
          | OAdd | OMul => 2 <= length (args g v)
          | OCallStd f => length (args g v) = arguments f
          | OGet _ => False
          | _ => True
          end
}.
Record printable (ftext : load_src -> string) (g : graph) (d : list name) (v : name) : Prop := {
  k_text : match op_of g v with OCallExt f => identifier f | OLoad l => load_ok ftext l | _ => True end;
  k_first : forall a r, args g v = a :: r -> declared d a = false -> operand_ok (op_of g v) true (op_of g a) = true;
  k_rest : forall a b r, args g v = a :: r -> In b r -> declared d b = false ->
    operand_ok (op_of g v) false (op_of g b) = true
}.
