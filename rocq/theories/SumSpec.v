(** Exact expressions: no doubles, 64-bit integers, reduced rationals, at most one number per product. *)
From Coq Require Import List ZArith Bool.
From Verif Require Import Outcome RationalModel RationalSpec ExprModel OrderSpec.
Import ListNotations.

Fixpoint exact (e : expr) : Prop :=
  match e with
  | EFlt _ => False
  | EInt z => in_i64 z
  | ERat q => canonical (num q) (den q) /\ den q <> 1%Z
  | EMul l => (List.length (filter is_num l) <= 1)%nat /\ all_of exact l
  | EAdd l | EFun _ l | ESymFn _ l => all_of exact l
  | EPow a b => exact a /\ exact b
  | EUneval a | EIver a | EStop a => exact a
  | ECond a b c | ESubst a b c => exact a /\ exact b /\ exact c
  | EDeriv a b _ | ERel _ a b => exact a /\ exact b
  | _ => True
  end.

(** Factors of generalised monomials: numbers, atoms and numeric powers of atoms. *)
Definition is_atom (b : expr) : bool :=
  match b with
  | EVar _ | EAdd _ | ESymFn _ _ | ESym Pi | ECond _ _ _ | EIver _ | EDeriv _ _ _ | ESubst _ _ _ | EStop _ | EUneval _ => true
  | EFun f _ => match f with Fexp => false | _ => true end
  | _ => false
  end.

Fixpoint monomial (e : expr) : Prop :=
  match e with
  | EInt _ | ERat _ | EInf | EUndef => True
  | EPow b x => is_atom b = true /\ is_num x = true
  | EMul l => all_of monomial l
  | _ => is_atom e = true
  end.
