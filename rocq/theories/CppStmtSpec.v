(** How C++ reads the statements of a function: declarations, assignments, returns and branches, over the tokens and
    expressions of CppSpec.v.  Said without reference to the generator.

    This is the part of [stmt] and [dcl] that has, at the beginning of a statement, a type that is a name, a name, or
    the star of a dereferenced name; bodies of branches are always in braces. *)
From Coq Require Import String List Bool.
From Verif Require Import CppSpec.
Import ListNotations.
Open Scope string_scope.

Inductive cstmt :=
| CsDeclare (const : bool) (type : list string) (s : string) (init : option cexp)
| CsAssign (pointer : bool) (s : string) (e : cexp)
| CsReturn (e : cexp)
| CsIf (c : cexp) (l r : list cstmt).

(** Words that no variable and no type is called. *)
Definition stmt_words : list string := keywords ++ ["if"; "else"; "return"; "const"].
Definition plain (s : string) : Prop := is_in s stmt_words = false.
Definition const_tokens (b : bool) : list token := if b then [TWord "const"] else [].
Definition star_tokens (b : bool) : list token := if b then [TPunct "*"] else [].

Inductive sgram : list token -> cstmt -> Prop :=
| sg_declare b tt p s : path_tokens tt p -> Forall plain p -> plain s ->
    sgram (const_tokens b ++ tt ++ [TWord s; TPunct ";"]) (CsDeclare b p s None)
| sg_init b tt p s te e : path_tokens tt p -> Forall plain p -> plain s -> gram 0 te e ->
    sgram (const_tokens b ++ tt ++ TWord s :: TPunct "=" :: te ++ [TPunct ";"]) (CsDeclare b p s (Some e))
| sg_assign b s te e : plain s -> gram 0 te e ->
    sgram (star_tokens b ++ TWord s :: TPunct "=" :: te ++ [TPunct ";"]) (CsAssign b s e)
| sg_return te e : gram 0 te e -> sgram (TWord "return" :: te ++ [TPunct ";"]) (CsReturn e)
| sg_if tc c tl l : gram 0 tc c -> bgram tl l ->
    sgram (TWord "if" :: TPunct "(" :: tc ++ TPunct ")" :: TPunct "{" :: tl ++ [TPunct "}"]) (CsIf c l [])
| sg_else tc c tl l tr r : gram 0 tc c -> bgram tl l -> bgram tr r ->
    sgram (TWord "if" :: TPunct "(" :: tc ++ TPunct ")" :: TPunct "{" :: tl ++ TPunct "}" :: TWord "else" :: TPunct "{" :: tr ++ [TPunct "}"])
      (CsIf c l r)
with bgram : list token -> list cstmt -> Prop :=
| bg_nil : bgram [] []
| bg_cons ts s tb b : sgram ts s -> bgram tb b -> bgram (ts ++ tb) (s :: b).

(** The text is the body of a function, braces included, and this is how it is read. *)
Definition body_reads (s : string) (b : list cstmt) : Prop := exists ts, lex s = (TPunct "{" :: ts ++ [TPunct "}"])%list /\ bgram ts b.
