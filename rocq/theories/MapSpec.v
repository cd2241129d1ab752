(** What substitution means. *)
From Coq Require Import String List ZArith Reals Bool.
From Verif Require Import Outcome RationalModel RationalSpec ExprModel ExprSpec OrderSpec DerivSpec.
Import ListNotations.
Open Scope R_scope.

(** Numbers in range, and brackets around conditions only. *)
Fixpoint shaped (e : expr) : Prop :=
  match e with
  | EInt z => in_i64 z
  | ERat q => canonical (num q) (den q) /\ den q <> 1%Z
  | EMul l | EAdd l | EFun _ l | ESymFn _ l => all_of shaped l
  | EPow a b | EDeriv a b _ | ERel _ a b => shaped a /\ shaped b
  | EUneval a | EStop a => shaped a
  | EIver c => is_bool c = true /\ shaped c
  | ECond a b c | ESubst a b c => shaped a /\ shaped b /\ shaped c
  | _ => True
  end.

(** The replacement of a variable by the first pair that names it. *)
Fixpoint replacement (v : var) (pairs : list (var * expr)) : option expr :=
  match pairs with
  | [] => None
  | (w, r) :: t => if var_eq_dec v w then Some r else replacement v t
  end.

(** [s'] is the assignment [s] in which the variables have the values of their replacements, all at once. *)
Definition simultaneous (s : env) (pairs : list (var * expr)) (s' : env) : Prop :=
  ef s' = ef s /\
  forall v, match replacement v pairs with
            | Some r => eval s r = Rv (ev s' v)
            | None => ev s' v = ev s v
            end.

(** One replacement after the other: the last one is the first to see the assignment. *)
Fixpoint in_order (s : env) (pairs : list (var * expr)) (s' : env) : Prop :=
  match pairs with
  | [] => s' = s
  | (v, r) :: t => exists s1, in_order s t s1 /\ exists x, eval s1 r = Rv x /\ s' = upd s1 v x
  end.

(** Logarithms of anything declared positive are classified as positive by the analysis of number sets, which is
    wrong below one ([C11_log_refuted]). [tr] gives the transformed arguments. *)
Fixpoint logs_fine (tr : expr -> outcome expr) (s : env) (e : expr) : Prop :=
  match e with
  | EFun f l =>
      all_of (logs_fine tr s) l /\
      (f = Flog -> all_of (fun a => forall d, tr a = Ok d -> determine_set d = real_positive -> forall x, eval s d = Rv x -> 1 < x) l)
  | EMul l | EAdd l | ESymFn _ l => all_of (logs_fine tr s) l
  | EPow a b | EDeriv a b _ | ERel _ a b => logs_fine tr s a /\ logs_fine tr s b
  | EUneval a | EStop a | EIver a => logs_fine tr s a
  | ECond a b c | ESubst a b c => logs_fine tr s a /\ logs_fine tr s b /\ logs_fine tr s c
  | _ => True
  end.
