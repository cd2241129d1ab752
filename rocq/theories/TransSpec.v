(** Conditions on the expressions that are transformed. *)
From Coq Require Import String List ZArith Reals Bool.
From Verif Require Import Outcome RationalModel ExprModel ExprSpec OrderSpec.
Import ListNotations.
Open Scope R_scope.

(** Every logarithm is taken of a real number above one (see [C11_log_refuted]: below one the analysis of number
    sets is wrong about the sign of a logarithm). *)
Fixpoint logs_large (s : env) (e : expr) : Prop :=
  match e with
  | EFun f l => all_of (logs_large s) l /\ (f = Flog -> all_of (fun a => exists x, eval s a = Rv x /\ 1 < x) l)
  | EMul l | EAdd l | ESymFn _ l => all_of (logs_large s) l
  | EPow a b | EDeriv a b _ | ERel _ a b => logs_large s a /\ logs_large s b
  | EUneval a | EStop a | EIver a => logs_large s a
  | ECond a b c | ESubst a b c => logs_large s a /\ logs_large s b /\ logs_large s c
  | _ => True
  end.

(** Every variable satisfies [V]. *)
Fixpoint vars_in (V : var -> Prop) (e : expr) : Prop :=
  match e with
  | EVar v => V v
  | EMul l | EAdd l | EFun _ l | ESymFn _ l => all_of (vars_in V) l
  | EPow a b | EDeriv a b _ | ERel _ a b => vars_in V a /\ vars_in V b
  | EUneval a | EStop a | EIver a => vars_in V a
  | ECond a b c | ESubst a b c => vars_in V a /\ vars_in V b /\ vars_in V c
  | _ => True
  end.

(** [e] is a power of [t] or a product with such a factor. *)
Definition power_of (t e : expr) : bool := match e with EPow b _ => ident b t | _ => ident e t end.
Definition has_power (t e : expr) : bool :=
  match e with
  | EMul l => existsb (power_of t) l
  | _ => power_of t e
  end.
