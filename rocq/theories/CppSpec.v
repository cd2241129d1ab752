(** How C++ reads an expression: the tokens of a text, the grammar of expressions and what an expression means.
    Said without reference to the generator.

    Tokens follow [lex.pptoken]: the longest sequence of characters that could be a token is the next one.  The
    grammar is the part of [expr] from primary to conditional expressions over names, literals, calls, member access,
    static_cast and the arithmetic, relational, equality and logical operators; an identifier never names a template,
    so [<] after one is always the operator.  Assignments, comma expressions, bitwise and shift operators and
    subscripts are left out (no text of the generator has them). *)
From Coq Require Import String Ascii List Arith ZArith Bool.
Import ListNotations.
Open Scope string_scope.
Open Scope nat_scope.

Inductive token := TWord (s : string) | TNum (s : string) | TPunct (s : string).

Definition is_digit (c : ascii) : bool := let n := nat_of_ascii c in (48 <=? n) && (n <=? 57).
Definition is_letter (c : ascii) : bool :=
  let n := nat_of_ascii c in
  ((65 <=? n) && (n <=? 90)) || ((97 <=? n) && (n <=? 122)) || (n =? 95).
Definition is_word_char (c : ascii) : bool := is_letter c || is_digit c.
Definition is_space (c : ascii) : bool := let n := nat_of_ascii c in (n =? 32) || ((9 <=? n) && (n <=? 13)).

Definition is_in (s : string) (l : list string) : bool := existsb (String.eqb s) l.
(** [lex.operators], and the beginnings of comments. *)
Definition long_punctuators : list string :=
  ["::"; "->"; ".*"; "++"; "--"; "<<"; ">>"; "<="; ">="; "=="; "!="; "&&"; "||"; "+="; "-="; "*="; "/="; "%="; "&=";
   "|="; "^="; "##"; "//"; "/*"; "->*"; "<=>"; "<<="; ">>="; ".."; "..."].

Definition snoc (w : string) (c : ascii) : string := (w ++ String c "")%string.
Fixpoint last_char (w : string) (d : ascii) : ascii :=
  match w with EmptyString => d | String c t => last_char t c end.

(** Does [c] belong to the token that begins with [w]?  Numbers are preprocessing numbers [lex.ppnumber]. *)
Definition extends (w : string) (c : ascii) : bool :=
  match w with
  | EmptyString => false
  | String a t =>
      if is_letter a then is_word_char c
      else if is_digit a || (Ascii.eqb a "." && match t with String b _ => is_digit b | _ => false end) then
        is_word_char c || Ascii.eqb c "." ||
        ((Ascii.eqb c "+" || Ascii.eqb c "-") &&
         (let l := last_char t a in Ascii.eqb l "e" || Ascii.eqb l "E" || Ascii.eqb l "p" || Ascii.eqb l "P"))
      else (Ascii.eqb a "." && match t with EmptyString => is_digit c | _ => false end) || is_in (snoc w c) long_punctuators
  end.
Definition token_of (w : string) : list token :=
  match w with
  | EmptyString => []
  | String a t =>
      if is_letter a then [TWord w]
      else if is_digit a || (Ascii.eqb a "." && match t with String b _ => is_digit b | _ => false end) then [TNum w]
      else [TPunct w]
  end.
Fixpoint lex_from (w s : string) : list token :=
  match s with
  | EmptyString => token_of w
  | String c t =>
      if extends w c then lex_from (snoc w c) t
      else token_of w ++ lex_from (if is_space c then "" else String c "") t
  end.
Definition lex (s : string) : list token := lex_from "" s.

(** Expressions. *)
Inductive cexp :=
| CId (path : list string) | CNum (s : string) | CBool (b : bool) | CUn (o : string) (a : cexp)
| CBin (o : string) (a b : cexp) | CCond (c a b : cexp) | CCast (t : list string) (a : cexp)
| CCall (f : cexp) (l : list cexp) | CDot (a : cexp) (f : string).

Definition keywords : list string := ["static_cast"; "true"; "false"].

(** Binary operators by level; all of them group to the left. *)
Definition binops (n : nat) : list string :=
  match n with
  | 1 => ["||"] | 2 => ["&&"] | 3 => ["=="; "!="] | 4 => ["<"; "<="; ">"; ">="] | 5 => ["+"; "-"] | 6 => ["*"; "/"; "%"]
  | _ => []
  end.
Definition unops : list string := ["-"; "+"; "!"; "--"; "++"].

(** Names, with their namespaces. *)
Inductive path_tokens : list token -> list string -> Prop :=
| path_one s : is_in s keywords = false -> path_tokens [TWord s] [s]
| path_more s ts p : is_in s keywords = false -> path_tokens ts p -> path_tokens (TWord s :: TPunct "::" :: ts) (s :: p).

(** Levels: 0 conditional-expression, 1 logical-or, 2 logical-and, 3 equality, 4 relational, 5 additive,
    6 multiplicative, 7 unary, 8 postfix. *)
Inductive gram : nat -> list token -> cexp -> Prop :=
| g_up n ts e : n < 8 -> gram (S n) ts e -> gram n ts e
| g_cond t1 t2 t3 c a b :
    gram 1 t1 c -> gram 0 t2 a -> gram 0 t3 b ->
    gram 0 (t1 ++ TPunct "?" :: t2 ++ TPunct ":" :: t3) (CCond c a b)
| g_bin n o t1 t2 a b :
    In o (binops n) -> gram n t1 a -> gram (S n) t2 b -> gram n (t1 ++ TPunct o :: t2) (CBin o a b)
| g_un o ts a : In o unops -> gram 7 ts a -> gram 7 (TPunct o :: ts) (CUn o a)
| g_call t1 t2 f l :
    gram 8 t1 f -> gram_args t2 l -> gram 8 (t1 ++ TPunct "(" :: t2 ++ [TPunct ")"]) (CCall f l)
| g_dot ts a f : is_in f keywords = false -> gram 8 ts a -> gram 8 (ts ++ [TPunct "."; TWord f]) (CDot a f)
| g_cast t1 t2 p a :
    path_tokens t1 p -> gram 0 t2 a ->
    gram 8 (TWord "static_cast" :: TPunct "<" :: t1 ++ TPunct ">" :: TPunct "(" :: t2 ++ [TPunct ")"]) (CCast p a)
| g_id ts p : path_tokens ts p -> gram 8 ts (CId p)
| g_num s : gram 8 [TNum s] (CNum s)
| g_true : gram 8 [TWord "true"] (CBool true)
| g_false : gram 8 [TWord "false"] (CBool false)
| g_paren ts a : gram 0 ts a -> gram 8 (TPunct "(" :: ts ++ [TPunct ")"]) a
with gram_args : list token -> list cexp -> Prop :=
| ga_none : gram_args [] []
| ga_some ts l : gram_args1 ts l -> gram_args ts l
with gram_args1 : list token -> list cexp -> Prop :=
| ga_one ts a : gram 0 ts a -> gram_args1 ts [a]
| ga_more t1 t2 a l : gram 0 t1 a -> gram_args1 t2 l -> gram_args1 (t1 ++ TPunct "," :: t2) (a :: l).

(** The text is an expression, and this is how it is read. *)
Definition reads_as (s : string) (e : cexp) : Prop := gram 0 (lex s) e.

(** What the parts of an expression stand for. *)
Record cpp := {
  V : Type;
  c_id : list string -> V; c_num : string -> V; c_bool : bool -> V;
  c_un : string -> V -> V; c_bin : string -> V -> V -> V; c_cond : V -> V -> V -> V;
  c_cast : list string -> V -> V; c_call : V -> list V -> V; c_dot : V -> string -> V
}.
Section Eval.
  Variable C : cpp.
  Fixpoint ceval (e : cexp) : V C :=
    match e with
    | CId p => c_id C p
    | CNum s => c_num C s
    | CBool b => c_bool C b
    | CUn o a => c_un C o (ceval a)
    | CBin o a b => c_bin C o (ceval a) (ceval b)
    | CCond c a b => c_cond C (ceval c) (ceval a) (ceval b)
    | CCast t a => c_cast C t (ceval a)
    | CCall f l => c_call C (ceval f) (map ceval l)
    | CDot a f => c_dot C (ceval a) f
    end.
End Eval.
