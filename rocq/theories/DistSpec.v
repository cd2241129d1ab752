(** What distribution is about: the expressions it visits, and sums multiplied out. *)
From Coq Require Import String List ZArith Reals Bool.
From Verif Require Import Outcome RationalModel ExprModel ExprSpec MapModel.
Import ListNotations.
Open Scope R_scope.

(** The expressions that the rest of a visit asks for, and the expressions that are visited on the way to the
    result for [e]. *)
Section Visits.
Variable visit : expr -> work.

Inductive asked : work -> expr -> Prop :=
| asked_now x f : asked (Ask x f) x
| asked_later x f k d y : run_plain visit k x = Ok d -> asked (f d) y -> asked (Ask x f) y.

Inductive visited : expr -> expr -> Prop :=
| visited_root e : visited e e
| visited_next e x y : visited e x -> asked (visit x) y -> visited e y.
End Visits.

(** A product that is zero has real factors only (zero times a sum of complex numbers is zero, but the products of
    zero with its terms need not be known to be); a power that is not a real number has a positive exponent. *)
Definition distributes (s : env) (e : expr) : Prop :=
  match e with
  | EMul l => eval s e = Rv 0 -> Forall (fun a => exists x, eval s a = Rv x) l
  | EPow b x => eval s e = Fin -> exists y, eval s x = Rv y /\ 0 < y
  | _ => True
  end.
