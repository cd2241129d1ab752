(** How Python reads the body of a function: lines, indentation, assignments, returns and branches, over the tokens and
    expressions of PySpec.v.  Said without reference to the generator.

    Left out: comments, tabs, strings, backslashes and semicolons. *)
From Coq Require Import String Ascii List Arith Bool.
From Verif Require Import CppSpec PySpec.
Import ListNotations.
Open Scope string_scope.
Open Scope list_scope.

(** ** Lines *)
Definition is_newline (c : ascii) : bool := Ascii.eqb c (ascii_of_nat 10).
Definition opening (c : ascii) : bool := Ascii.eqb c "(" || Ascii.eqb c "[" || Ascii.eqb c "{".
Definition closing (c : ascii) : bool := Ascii.eqb c ")" || Ascii.eqb c "]" || Ascii.eqb c "}".
Definition depth_after (d : nat) (c : ascii) : nat := if opening c then S d else if closing c then pred d else d.
(** A line ends at a newline that is not between brackets. *)
Fixpoint py_logical (d : nat) (cur s : string) : list string :=
  match s with
  | EmptyString => [cur]
  | String c t =>
      if is_newline c && (d =? 0)%nat then (cur :: py_logical 0 "" t)%list else py_logical (depth_after d c) (snoc cur c) t
  end.
Fixpoint py_indent (s : string) : nat := match s with String c t => if Ascii.eqb c " " then S (py_indent t) else 0 | _ => 0 end.
(** The indentation of a line and its tokens; a line without any is none. *)
Definition line : Type := nat * list token.
Definition line_of (s : string) : line := (py_indent s, py_lex s).
Definition filled (l : line) : bool := match snd l with [] => false | _ => true end.
Definition py_lines (s : string) : list line := filter filled (map line_of (py_logical 0 "" s)).

(** ** Statements *)
Inductive pstmt :=
| PsAssign (s : string) (e : option pexp)   (* [None]: the value None *)
| PsReturn (e : pexp) (more : list pexp)    (* more than one: a tuple *)
| PsIf (c : pexp) (l r : list pstmt).

Definition py_free (s : string) : Prop := is_in s py_keywords = false.
Inductive psimple : list token -> pstmt -> Prop :=
| ps_assign s te e : py_free s -> pgram 0 te e -> psimple (TWord s :: TPunct "=" :: te) (PsAssign s (Some e))
| ps_none s : py_free s -> psimple [TWord s; TPunct "="; TWord "None"] (PsAssign s None)
| ps_return te e : pgram 0 te e -> psimple (TWord "return" :: te) (PsReturn e [])
| ps_tuple ts a b l : pgram_args1 false ts (a :: b :: l) -> psimple (TWord "return" :: TPunct "(" :: ts ++ [TPunct ")"])%list (PsReturn a (b :: l)).

(** The lines of statements that begin at indentation [k]; what belongs to a branch is indented further, and is not
    nothing. *)
Inductive pblock : nat -> list line -> list pstmt -> Prop :=
| pb_nil k : pblock k [] []
| pb_simple k ts s ls b : psimple ts s -> pblock k ls b -> pblock k ((k, ts) :: ls) (s :: b)
| pb_if k k1 tc c li l ls b : pgram 0 tc c -> k < k1 -> li <> [] -> pblock k1 li l -> pblock k ls b ->
    pblock k ((k, TWord "if" :: tc ++ [TPunct ":"]) :: li ++ ls) (PsIf c l [] :: b)
| pb_else k k1 k2 tc c li l lr r ls b : pgram 0 tc c -> k < k1 -> li <> [] -> pblock k1 li l -> k < k2 -> lr <> [] -> pblock k2 lr r ->
    pblock k ls b ->
    pblock k ((k, TWord "if" :: tc ++ [TPunct ":"]) :: li ++ (k, [TWord "else"; TPunct ":"]) :: lr ++ ls) (PsIf c l r :: b).

(** The text is the body of a function (indented, not empty), and this is how it is read. *)
Definition py_body_reads (s : string) (b : list pstmt) : Prop := b <> [] /\ exists k, 0 < k /\ pblock k (py_lines s) b.
