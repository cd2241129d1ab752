(** How Rust reads an expression: the tokens of a text, the grammar of expressions and what an expression means.
    Said without reference to the generator.

    Tokens follow the chapter on tokens of the language reference: the longest sequence of characters that could be a
    token is the next one.  One thing is simplified: a dot behind a decimal number always belongs to the number, so a
    method of a literal ([2.max(x)]) is not an expression here.  The grammar is the part of the chapter on expressions
    over paths, literals, calls, methods, fields, indices, tuples, selections by [if], the borrow, sign, cast, arithmetic
    and comparison operators.  Comparisons do not group, and behind the type of a cast the sign [<] would begin the
    arguments of the type: it cannot be the operator.  Left out are blocks with statements, closures, ranges, assignments,
    macros, struct expressions, strings and the lazy boolean, bitwise and shift operators. *)
From Coq Require Import String Ascii List Arith ZArith Bool.
From Verif Require Import CppSpec.
Import ListNotations.
Open Scope string_scope.
Open Scope nat_scope.

(** ** Tokens *)
Definition rs_long : list string :=
  ["::"; "->"; "=>"; "<-"; "<="; ">="; "=="; "!="; "&&"; "||"; "<<"; ">>"; "+="; "-="; "*="; "/="; "%="; "^="; "&="; "|=";
   "<<="; ">>="; ".."; "..."; "..="; "//"; "/*"].
Fixpoint all_digits (s : string) : bool := match s with EmptyString => true | String c t => is_digit c && all_digits t end.
(** Digits and dots, and then the sign of an exponent. *)
Fixpoint exponent (s : string) : bool :=
  match s with
  | EmptyString => false
  | String c EmptyString => Ascii.eqb c "e" || Ascii.eqb c "E"
  | String c t => (is_digit c || Ascii.eqb c ".") && exponent t
  end.

(** Does [c] belong to the token that begins with [w]? *)
Definition rs_extends (w : string) (c : ascii) : bool :=
  match w with
  | EmptyString => false
  | String a t =>
      if is_letter a then is_word_char c
      else if is_digit a then
        is_word_char c || (Ascii.eqb c "." && all_digits w) || ((Ascii.eqb c "+" || Ascii.eqb c "-") && exponent w)
      else is_in (snoc w c) rs_long
  end.
Definition rs_token (w : string) : list token :=
  match w with
  | EmptyString => []
  | String a t => if is_letter a then [TWord w] else if is_digit a then [TNum w] else [TPunct w]
  end.
Fixpoint rs_lex_from (w s : string) : list token :=
  match s with
  | EmptyString => rs_token w
  | String c t =>
      if rs_extends w c then rs_lex_from (snoc w c) t
      else rs_token w ++ rs_lex_from (if is_space c then "" else String c "") t
  end.
Definition rs_lex (s : string) : list token := rs_lex_from "" s.

(** ** Grammar *)
Inductive rexp :=
| RId (path : list string) | RNum (s : string) | RBool (b : bool) | RUn (o : string) (a : rexp) | RBin (o : string) (a b : rexp)
| RCast (a : rexp) (t : list string) | RCall (f : rexp) (l : list rexp) | RMethod (a : rexp) (f : string) (l : list rexp)
| RField (a : rexp) (f : string) | RIndex (a i : rexp) | RTuple (l : list rexp) | RIf (c a b : rexp).

Definition rs_keywords : list string :=
  ["_"; "as"; "break"; "const"; "continue"; "crate"; "else"; "enum"; "extern"; "false"; "fn"; "for"; "if"; "impl"; "in"; "let";
   "loop"; "match"; "mod"; "move"; "mut"; "pub"; "ref"; "return"; "self"; "Self"; "static"; "struct"; "super"; "trait"; "true";
   "type"; "unsafe"; "use"; "where"; "while"; "async"; "await"; "dyn"; "abstract"; "become"; "box"; "do"; "final"; "macro";
   "override"; "priv"; "try"; "typeof"; "unsized"; "virtual"; "yield"].

Definition rs_comparisons : list string := ["<"; "<="; ">"; ">="; "=="; "!="].
(** Operators that group to the left. *)
Definition rs_binops (n : nat) : list string := match n with 1 => ["+"; "-"] | 2 => ["*"; "/"; "%"] | _ => [] end.
Definition rs_unops : list string := ["-"; "!"; "*"; "&"].

Inductive rs_path : list token -> list string -> Prop :=
| rp_one s : is_in s rs_keywords = false -> rs_path [TWord s] [s]
| rp_more s ts p : is_in s rs_keywords = false -> rs_path ts p -> rs_path (TWord s :: TPunct "::" :: ts) (s :: p).

(** How a text ends: with the type of a cast, with the name of a field, or otherwise. *)
Inductive ending := ENone | EType | EField.

(** Levels: 0 comparison, 1 sum, 2 term, 3 cast, 4 unary operator, 5 calls, fields and the like. *)
Inductive rgram : nat -> ending -> list token -> rexp -> Prop :=
| rg_up n z ts e : n < 4 -> rgram (S n) z ts e -> rgram n z ts e
| rg_up5 z ts e : rgram 5 z ts e -> rgram 4 ENone ts e
| rg_cmp o z1 z2 t1 t2 a b :
    In o rs_comparisons -> (o = "<" -> z1 <> EType) -> rgram 1 z1 t1 a -> rgram 1 z2 t2 b ->
    rgram 0 z2 (t1 ++ TPunct o :: t2) (RBin o a b)
| rg_bin n o z1 z2 t1 t2 a b :
    In o (rs_binops n) -> rgram n z1 t1 a -> rgram (S n) z2 t2 b -> rgram n z2 (t1 ++ TPunct o :: t2) (RBin o a b)
| rg_as z t1 t2 a p : rgram 3 z t1 a -> rs_path t2 p -> rgram 3 EType (t1 ++ TWord "as" :: t2) (RCast a p)
| rg_un o ts a : In o rs_unops -> rgram 4 ENone ts a -> rgram 4 ENone (TPunct o :: ts) (RUn o a)
| rg_call z t1 t2 f l :
    z <> EField -> rgram 5 z t1 f -> rgram_args t2 l -> rgram 5 ENone (t1 ++ TPunct "(" :: t2 ++ [TPunct ")"]) (RCall f l)
| rg_method z t1 t2 a f l :
    is_in f rs_keywords = false -> rgram 5 z t1 a -> rgram_args t2 l ->
    rgram 5 ENone (t1 ++ TPunct "." :: TWord f :: TPunct "(" :: t2 ++ [TPunct ")"]) (RMethod a f l)
| rg_field z ts a f :
    is_in f rs_keywords = false -> rgram 5 z ts a -> rgram 5 EField (ts ++ [TPunct "."; TWord f]) (RField a f)
| rg_index z z2 t1 t2 a i : rgram 5 z t1 a -> rgram 0 z2 t2 i -> rgram 5 ENone (t1 ++ TPunct "[" :: t2 ++ [TPunct "]"]) (RIndex a i)
| rg_id ts p : rs_path ts p -> rgram 5 ENone ts (RId p)
| rg_num s : rgram 5 ENone [TNum s] (RNum s)
| rg_true : rgram 5 ENone [TWord "true"] (RBool true)
| rg_false : rgram 5 ENone [TWord "false"] (RBool false)
| rg_paren z ts a : rgram 0 z ts a -> rgram 5 ENone (TPunct "(" :: ts ++ [TPunct ")"]) a
| rg_tuple ts a b l : rgram_args1 ts (a :: b :: l) -> rgram 5 ENone (TPunct "(" :: ts ++ [TPunct ")"]) (RTuple (a :: b :: l))
| rg_if z1 z2 z3 t1 t2 t3 c a b :
    rgram 0 z1 t1 c -> rgram 0 z2 t2 a -> rgram 0 z3 t3 b ->
    rgram 5 ENone (TWord "if" :: t1 ++ TPunct "{" :: t2 ++ TPunct "}" :: TWord "else" :: TPunct "{" :: t3 ++ [TPunct "}"]) (RIf c a b)
with rgram_args : list token -> list rexp -> Prop :=
| ra_none : rgram_args [] []
| ra_some ts l : rgram_args1 ts l -> rgram_args ts l
with rgram_args1 : list token -> list rexp -> Prop :=
| ra_one z ts a : rgram 0 z ts a -> rgram_args1 ts [a]
| ra_more z t1 t2 a l : rgram 0 z t1 a -> rgram_args1 t2 l -> rgram_args1 (t1 ++ TPunct "," :: t2) (a :: l).

(** The text is an expression, and this is how it is read.  (Where a statement may begin, a selection by [if] ends the
    statement; the texts here stand behind [let x =], an assignment or inside another expression.) *)
Definition rs_reads (s : string) (e : rexp) : Prop := exists z, rgram 0 z (rs_lex s) e.

(** ** Meaning *)
Record rust := {
  RV : Type;
  r_id : list string -> RV; r_num : string -> RV; r_bool : bool -> RV; r_un : string -> RV -> RV;
  r_bin : string -> RV -> RV -> RV; r_as : RV -> list string -> RV; r_call : RV -> list RV -> RV;
  r_method : RV -> string -> list RV -> RV; r_field : RV -> string -> RV; r_index : RV -> RV -> RV;
  r_tuple : list RV -> RV; r_if : RV -> RV -> RV -> RV
}.
Section Eval.
  Variable R : rust.
  Fixpoint rs_eval (e : rexp) : RV R :=
    match e with
    | RId p => r_id R p
    | RNum s => r_num R s
    | RBool b => r_bool R b
    | RUn o a => r_un R o (rs_eval a)
    | RBin o a b => r_bin R o (rs_eval a) (rs_eval b)
    | RCast a t => r_as R (rs_eval a) t
    | RCall f l => r_call R (rs_eval f) (map rs_eval l)
    | RMethod a f l => r_method R (rs_eval a) f (map rs_eval l)
    | RField a f => r_field R (rs_eval a) f
    | RIndex a i => r_index R (rs_eval a) (rs_eval i)
    | RTuple l => r_tuple R (map rs_eval l)
    | RIf c a b => r_if R (rs_eval c) (rs_eval a) (rs_eval b)
    end.
End Eval.
