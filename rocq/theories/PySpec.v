(** How Python reads an expression: the tokens of a text, the grammar of expressions and what an expression means for
    real numbers.  Said without reference to the library.

    Tokens follow the lexical analysis chapter of the language reference: the longest sequence of characters that could
    be a token is the next one.  The grammar is the part from primaries to comparisons: names, numbers, truth values,
    calls with at most one keyword argument, which comes last, subscripts, attributes, powers, signs, products, sums and single comparisons.  Left out are chains of
    comparisons, boolean and bitwise operators, conditional expressions, lambdas, displays, strings and slices.  The sign
    [$], which Python does not know, is taken to be a letter: the names of unique variables begin with it. *)
From Coq Require Import String Ascii List Arith ZArith Reals Bool DecimalString.
From Verif Require Import RationalModel ExprModel ExprSpec CppSpec.
Import ListNotations.
Open Scope string_scope.
Open Scope nat_scope.

(** ** Tokens *)
Definition py_letter (c : ascii) : bool := is_letter c || Ascii.eqb c "$".
Definition py_word_char (c : ascii) : bool := py_letter c || is_digit c.

(** Operators and delimiters of more than one character. *)
Definition py_long : list string :=
  ["**"; "//"; "<<"; ">>"; ":="; "<="; ">="; "=="; "!="; "->"; "+="; "-="; "*="; "/="; "//="; "%="; "@="; "&="; "|=";
   "^="; ">>="; "<<="; "**="; ".."; "..."].

(** Does [c] belong to the token that begins with [w]? *)
Definition py_extends (w : string) (c : ascii) : bool :=
  match w with
  | EmptyString => false
  | String a t =>
      if py_letter a then py_word_char c
      else if is_digit a || (Ascii.eqb a "." && match t with String b _ => is_digit b | _ => false end) then
        py_word_char c || Ascii.eqb c "." ||
        ((Ascii.eqb c "+" || Ascii.eqb c "-") && (let l := last_char t a in Ascii.eqb l "e" || Ascii.eqb l "E"))
      else (Ascii.eqb a "." && match t with EmptyString => is_digit c | _ => false end) || is_in (snoc w c) py_long
  end.
Definition py_token (w : string) : list token :=
  match w with
  | EmptyString => []
  | String a t =>
      if py_letter a then [TWord w]
      else if is_digit a || (Ascii.eqb a "." && match t with String b _ => is_digit b | _ => false end) then [TNum w]
      else [TPunct w]
  end.
Fixpoint py_lex_from (w s : string) : list token :=
  match s with
  | EmptyString => py_token w
  | String c t =>
      if py_extends w c then py_lex_from (snoc w c) t
      else py_token w ++ py_lex_from (if is_space c then "" else String c "") t
  end.
Definition py_lex (s : string) : list token := py_lex_from "" s.

(** ** Grammar *)
Inductive pexp :=
| PId (s : string) | PNum (s : string) | PBool (b : bool) | PUn (o : string) (a : pexp) | PBin (o : string) (a b : pexp)
| PCall (f : pexp) (l : list pexp) | PDot (a : pexp) (f : string) | PSub (a : pexp) (l : list pexp)
(** A keyword argument, which is no expression. *)
| PKey (s : string) (a : pexp).

Definition py_keywords : list string :=
  ["True"; "False"; "None"; "and"; "as"; "assert"; "async"; "await"; "break"; "class"; "continue"; "def"; "del"; "elif";
   "else"; "except"; "finally"; "for"; "from"; "global"; "if"; "import"; "in"; "is"; "lambda"; "nonlocal"; "not"; "or";
   "pass"; "raise"; "return"; "try"; "while"; "with"; "yield"].

Definition py_comparisons : list string := ["<"; "<="; ">"; ">="; "=="; "!="].
(** Operators that group to the left. *)
Definition py_binops (n : nat) : list string :=
  match n with 1 => ["+"; "-"] | 2 => ["*"; "/"; "//"; "%"; "@"] | _ => [] end.
Definition py_signs : list string := ["-"; "+"; "~"].

(** Levels: 0 comparison, 1 sum, 2 term, 3 factor, 4 power, 5 primary. *)
Inductive pgram : nat -> list token -> pexp -> Prop :=
| pg_up n ts e : n < 5 -> pgram (S n) ts e -> pgram n ts e
| pg_cmp o t1 t2 a b :
    In o py_comparisons -> pgram 1 t1 a -> pgram 1 t2 b -> pgram 0 (t1 ++ TPunct o :: t2) (PBin o a b)
| pg_bin n o t1 t2 a b :
    In o (py_binops n) -> pgram n t1 a -> pgram (S n) t2 b -> pgram n (t1 ++ TPunct o :: t2) (PBin o a b)
| pg_un o ts a : In o py_signs -> pgram 3 ts a -> pgram 3 (TPunct o :: ts) (PUn o a)
| pg_pow t1 t2 a b : pgram 5 t1 a -> pgram 3 t2 b -> pgram 4 (t1 ++ TPunct "**" :: t2) (PBin "**" a b)
| pg_call t1 t2 f l :
    pgram 5 t1 f -> pgram_args t2 l -> pgram 5 (t1 ++ TPunct "(" :: t2 ++ [TPunct ")"]) (PCall f l)
| pg_sub t1 t2 a l :
    pgram 5 t1 a -> pgram_args1 false t2 l -> pgram 5 (t1 ++ TPunct "[" :: t2 ++ [TPunct "]"]) (PSub a l)
| pg_dot ts a f : is_in f py_keywords = false -> pgram 5 ts a -> pgram 5 (ts ++ [TPunct "."; TWord f]) (PDot a f)
| pg_id s : is_in s py_keywords = false -> pgram 5 [TWord s] (PId s)
| pg_num s : pgram 5 [TNum s] (PNum s)
| pg_true : pgram 5 [TWord "True"] (PBool true)
| pg_false : pgram 5 [TWord "False"] (PBool false)
| pg_paren ts a : pgram 0 ts a -> pgram 5 (TPunct "(" :: ts ++ [TPunct ")"]) a
with pgram_args : list token -> list pexp -> Prop :=
| pa_none : pgram_args [] []
| pa_some ts l : pgram_args1 true ts l -> pgram_args ts l
(** One or more arguments; [k]: is there to be a keyword? *)
with pgram_args1 : bool -> list token -> list pexp -> Prop :=
| pa_one k ts a : pgram 0 ts a -> pgram_args1 k ts [a]
| pa_more k t1 t2 a l : pgram 0 t1 a -> pgram_args1 k t2 l -> pgram_args1 k (t1 ++ TPunct "," :: t2) (a :: l)
| pa_key s ts a :
    is_in s py_keywords = false -> pgram 0 ts a -> pgram_args1 true (TWord s :: TPunct "=" :: ts) [PKey s a].

(** The text is an expression, and this is how it is read. *)
Definition py_reads (s : string) (e : pexp) : Prop := pgram 0 (py_lex s) e.

(** ** Values *)
Open Scope R_scope.

Definition vneg (a : val) : val := match a with Rv x => Rv (- x) | v => v end.
Definition vsub (a b : val) : val := vadd a (vneg b).
(** Division by zero has no value, and whether a complex number that we do not track is zero is not known. *)
Definition vdiv (a b : val) : val :=
  match a, b with
  | Rv x, Rv y => if Req_EM_T y 0 then Top else Rv (x / y)
  | Fin, Rv y => if Req_EM_T y 0 then Top else Fin
  | _, _ => Top
  end.

(** A step from a structured value to one of its parts: a member, or an element by row and column. *)
Inductive step := SMember (f : string) | SElement (r c : Z).
(** What the names stand for: parts of structured values, and functions of real numbers. *)
Record penv := mk_penv { pe_value : string -> list step -> val; pe_fun : string -> list R -> R }.

(** x, x.a, x[1, 2], x.a[0, 0].b, ... *)
Fixpoint part_of (e : pexp) : option (string * list step) :=
  match e with
  | PId s => Some (s, [])
  | PDot a f => match part_of a with Some (s, p) => Some (s, p ++ [SMember f])%list | None => None end
  | PSub a [PNum r; PNum c] =>
      match part_of a, NilZero.int_of_string r, NilZero.int_of_string c with
      | Some (s, p), Some i, Some j => Some (s, p ++ [SElement (Z.of_int i) (Z.of_int j)])%list
      | _, _, _ => None
      end
  | _ => None
  end.

Definition builtins : list (string * fn) :=
  [("cos", Fcos); ("sin", Fsin); ("tan", Ftan); ("acos", Facos); ("asin", Fasin); ("atan", Fatan); ("cosh", Fcosh);
   ("sinh", Fsinh); ("tanh", Ftanh); ("acosh", Facosh); ("asinh", Fasinh); ("atanh", Fatanh); ("log", Flog);
   ("exp", Fexp); ("abs", Fabs); ("sign", Fsign); ("floor", Ffloor); ("atan2", Fatan2)].
(** Functions with a fixed meaning, besides the elementary ones.  [Derivative] and [Subs] have no value as functions of
    the values of their arguments. *)
Definition call_value (E : penv) (f : string) (l : list val) : val :=
  match find (fun b => String.eqb (fst b) f) builtins with
  | Some (_, g) => vfun g l
  | None =>
      if String.eqb f "where" then match l with [c; a; b] => vcond c a b | _ => Top end
      else if String.eqb f "iverson" || String.eqb f "StopDerivative" then match l with [a] => a | _ => Top end
      else if String.eqb f "Derivative" || String.eqb f "Subs" then Top
      else match reals l with Some xs => Rv (pe_fun E f xs) | None => Top end
  end.
Definition bin_value (o : string) (a b : val) : val :=
  if String.eqb o "+" then vadd a b else if String.eqb o "-" then vsub a b else if String.eqb o "*" then vmul a b
  else if String.eqb o "/" then vdiv a b else if String.eqb o "**" then vpow a b
  else if String.eqb o "<" then vrel RLt a b else if String.eqb o "<=" then vrel RLe a b
  else if String.eqb o ">" then vrel RLt b a else if String.eqb o ">=" then vrel RLe b a
  else if String.eqb o "==" then vrel REq a b else Top.
Definition un_value (o : string) (a : val) : val :=
  if String.eqb o "-" then vneg a else if String.eqb o "+" then a else Top.
(** Decimal integers; numbers with a fraction or an exponent are doubles, whose values are not tracked. *)
Definition num_value (s : string) : val :=
  match NilZero.int_of_string s with Some d => Rv (IZR (Z.of_int d)) | None => Top end.

Section Value.
  Variable E : penv.
  Fixpoint pvalue (e : pexp) : val :=
    match e with
    | PNum s => num_value s
    | PBool b => Rv (if b then 1 else 0)
    | PUn o a => un_value o (pvalue a)
    | PBin o a b => bin_value o (pvalue a) (pvalue b)
    | PCall (PId f) l => call_value E f (map pvalue l)
    | PCall _ _ | PKey _ _ => Top
    | PId _ | PDot _ _ | PSub _ _ => match part_of e with Some (s, p) => pe_value E s p | None => Top end
    end.
End Value.
