(** What the derivative of an expression is, and at which points the rules of calculus apply. *)
From Coq Require Import String List ZArith Reals Bool.
From Verif Require Import Outcome RationalModel RationalSpec ExprModel ExprSpec OrderSpec SumSpec.
Import ListNotations.
Open Scope R_scope.

Definition var_eq_dec (a b : var) : {a = b} + {a <> b}.
Proof. repeat decide equality. Defined.

(** The assignment [s] with [t] for the variable [v]. *)
Definition upd (s : env) (v : var) (t : R) : env :=
  mk_env (fun w => if var_eq_dec v w then t else ev s w) (ef s).

(** [G] is a real function around [x0], differentiable there with derivative [y]. *)
Definition has_deriv (G : R -> val) (x0 y : R) : Prop :=
  exists F d, 0 < d /\ (forall t, Rabs (t - x0) < d -> G t = Rv (F t)) /\ derivable_pt_lim F x0 y.

(** As a function of the variable [v], around the assignment [s], the expression has the derivative [y]. *)
Definition has_derivative (s : env) (v : var) (e : expr) (y : R) : Prop :=
  has_deriv (fun t => eval (upd s v t) e) (ev s v) y.

(** Around [s] the condition keeps the value [r], as [v] varies. *)
Definition locally_constant (s : env) (v : var) (c : expr) (r : R) : Prop :=
  exists d, 0 < d /\ forall t, Rabs (t - ev s v) < d -> eval (upd s v t) c = Rv r.

(** Expressions built without [v] (and without the nodes whose derivative may stay abstract). *)
Fixpoint free_of (v : var) (e : expr) : bool :=
  match e with
  | EVar w => if var_eq_dec v w then false else true
  | EMul l | EAdd l | EFun _ l | ESymFn _ l => forallb (free_of v) l
  | EPow a b => free_of v a && free_of v b
  | ECond c a b => free_of v c && free_of v a && free_of v b
  | ERel _ a b => free_of v a && free_of v b
  | EUndef | EUneval _ | EIver _ | EDeriv _ _ _ | ESubst _ _ _ | EStop _ => false
  | _ => true
  end.

(** Where the functions are differentiable. *)
Definition fn_smooth (f : fn) (constant : bool) (x : R) : Prop :=
  match f with
  | Ftan => cos x <> 0
  | Facos | Fasin | Fatanh => -1 < x < 1
  | Facosh => 1 < x
  | Flog => 0 < x
  | Fabs => x <> 0
  | Fsign => constant = true /\ x <> 0
  | Ffloor => constant = true /\ ~ is_integer_R x
  | Fatan2 => False
  | _ => True
  end.

(** Somewhere the logarithm of [b] has a value, and is treated correctly by the analysis of number sets (which
    calls the logarithm of anything positive positive, see [C11_log_refuted]). *)
Definition has_log (b : expr) : Prop :=
  exists s x, env_ok s /\ wf s b /\ eval s b = Rv x /\ x <> 0 /\ (determine_set b = real_positive -> 1 < x).

(** Points at which every part of the expression is differentiable; [constant]: derivatives of piecewise
    constant functions are requested to be zero. *)
Fixpoint smooth (constant : bool) (s : env) (v : var) (e : expr) : Prop :=
  match e with
  | EInt _ | ERat _ | ESym _ | EVar _ => True
  | EMul l | EAdd l => all_of (smooth constant s v) l
  | EPow b p =>
      smooth constant s v b /\ smooth constant s v p /\
      forall x, eval s b = Rv x -> 0 < x \/ exists z, p = EInt z /\ (x <> 0 \/ ((2 <= z)%Z /\ has_log b))
  | EFun Fatan2 [a; b] =>
      smooth constant s v a /\ smooth constant s v b /\
      forall y x, eval s a = Rv y -> eval s b = Rv x -> 0 < x \/ y <> 0
  | EFun f [a] => smooth constant s v a /\ forall x, eval s a = Rv x -> fn_smooth f constant x
  | ESymFn _ l => forallb (free_of v) l = true /\ exists xs, reals (map (eval s) l) = Some xs
  | ECond c a b =>
      (locally_constant s v c 1 /\ smooth constant s v a) \/ (locally_constant s v c 0 /\ smooth constant s v b)
  | EIver c => constant = true /\ exists r, locally_constant s v c r
  | EUneval a => smooth constant s v a
  | _ => False
  end.

(** The power rule introduces the logarithm of the base, and multiplies it by zero when the exponent is a
    number. *)
Fixpoint logs_ok (s : env) (e : expr) : Prop :=
  match e with
  | EPow b p =>
      logs_ok s b /\ logs_ok s p /\
      ((determine_set b = real_positive -> forall x, eval s b = Rv x -> 1 < x) \/
       (match p with EInt _ | ERat _ => True | _ => False end /\ has_log b))
  | EMul l | EAdd l | EFun _ l | ESymFn _ l => all_of (logs_ok s) l
  | EUneval a | EIver a | EStop a => logs_ok s a
  | ECond a b c | ESubst a b c => logs_ok s a /\ logs_ok s b /\ logs_ok s c
  | EDeriv a b _ | ERel _ a b => logs_ok s a /\ logs_ok s b
  | _ => True
  end.
