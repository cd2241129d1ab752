(** What the ordering of expressions has to satisfy.  [plain e]: the constants in [e] are the ones the
    library creates on its own, reduced rationals and doubles other than NaN. *)
From Coq Require Import List ZArith Bool.
From Flocq Require Import IEEE754.BinarySingleNaN.
From Verif Require Import Outcome RationalModel RationalSpec IntFloatModel ExprModel.
Import ListNotations.

Definition all_of (P : expr -> Prop) : list expr -> Prop :=
  fix go l := match l with [] => True | x :: t => P x /\ go t end.

Fixpoint plain (e : expr) : Prop :=
  match e with
  | EFlt f => is_nan f = false
  | ERat q => canonical (num q) (den q)
  | EMul l | EAdd l | EFun _ l | ESymFn _ l => all_of plain l
  | EPow a b => plain a /\ plain b
  | EUneval a | EIver a | EStop a => plain a
  | ECond a b c | ESubst a b c => plain a /\ plain b /\ plain c
  | EDeriv a b _ | ERel _ a b => plain a /\ plain b
  | _ => True
  end.

(** The comparison of a with c that follows from those of a with b and of b with c. *)
Definition chain (x y : comparison) : option comparison :=
  match x, y with
  | Eq, c | c, Eq => Some c
  | Lt, Lt => Some Lt
  | Gt, Gt => Some Gt
  | _, _ => None
  end.
