(** How Rust reads the body of a function: bindings, assignments and branches, over the tokens and expressions of
    RustSpec.v.  Said without reference to the generator.

    A body may end with an expression, which is what the function returns.  Where a statement may begin, [if] begins a
    branch and nothing behind its last brace belongs to it; so the expression at the end is one that does not begin with
    [if].  (Rust also reads a whole branch there as the expression; that is left out.)  The bodies of branches have no
    value. *)
From Coq Require Import String List Bool.
From Verif Require Import CppSpec RustSpec.
Import ListNotations.
Open Scope string_scope.

Inductive rstmt :=
| RsLet (s : string) (type : list string) (init : option rexp)
| RsAssign (pointer : bool) (s : string) (e : rexp)
| RsIf (c : rexp) (l r : list rstmt)
| RsIfSome (s from : string) (l : list rstmt).

Definition rs_free (s : string) : Prop := is_in s rs_keywords = false.
Definition rs_star (b : bool) : list token := if b then [TPunct "*"] else [].

Inductive rsgram : list token -> rstmt -> Prop :=
| rs_let s tt p : rs_free s -> rs_path tt p ->
    rsgram (TWord "let" :: TWord s :: TPunct ":" :: tt ++ [TPunct ";"]) (RsLet s p None)
| rs_init s tt p z te e : rs_free s -> rs_path tt p -> rgram 0 z te e ->
    rsgram (TWord "let" :: TWord s :: TPunct ":" :: tt ++ TPunct "=" :: te ++ [TPunct ";"]) (RsLet s p (Some e))
| rs_assign b s z te e : rs_free s -> rgram 0 z te e ->
    rsgram (rs_star b ++ TWord s :: TPunct "=" :: te ++ [TPunct ";"]) (RsAssign b s e)
| rs_if z tc c tl l : rgram 0 z tc c -> rbgram tl l ->
    rsgram (TWord "if" :: tc ++ TPunct "{" :: tl ++ [TPunct "}"]) (RsIf c l [])
| rs_else z tc c tl l tr r : rgram 0 z tc c -> rbgram tl l -> rbgram tr r ->
    rsgram (TWord "if" :: tc ++ TPunct "{" :: tl ++ TPunct "}" :: TWord "else" :: TPunct "{" :: tr ++ [TPunct "}"]) (RsIf c l r)
| rs_some s o tl l : rs_free s -> rs_free o -> rbgram tl l ->
    rsgram (TWord "if" :: TWord "let" :: TWord "Some" :: TPunct "(" :: TWord s :: TPunct ")" :: TPunct "=" :: TWord o :: TPunct "{" :: tl ++ [TPunct "}"])
      (RsIfSome s o l)
with rbgram : list token -> list rstmt -> Prop :=
| rb_nil : rbgram [] []
| rb_cons ts s tb b : rsgram ts s -> rbgram tb b -> rbgram (ts ++ tb) (s :: b).

Definition not_branch (ts : list token) : Prop := match ts with TWord s :: _ => s <> "if" | _ => True end.
Inductive rtail : list token -> option rexp -> Prop :=
| rt_none : rtail [] None
| rt_some z te e : rgram 0 z te e -> not_branch te -> rtail te (Some e).

(** The text is the body of a function, braces included, and this is how it is read. *)
Definition rs_body_reads (s : string) (b : list rstmt) (value : option rexp) : Prop :=
  exists ts te, rs_lex s = (TPunct "{" :: ts ++ te ++ [TPunct "}"])%list /\ rbgram ts b /\ rtail te value.
