(** The mathematical order of an integer and a double. *)
From Coq Require Import ZArith Reals.
From Flocq Require Import Core.Raux IEEE754.BinarySingleNaN.

(** [exact_order i f c]: comparing the number [i] with the double [f] gives [c]; NaN is incomparable and
    the infinities lie beyond every integer. *)
Definition exact_order (i : Z) (f : binary_float 53 1024) (c : option comparison) : Prop :=
  match f with
  | B754_nan => c = None
  | B754_infinity true => c = Some Gt
  | B754_infinity false => c = Some Lt
  | _ => (c = Some Lt /\ (IZR i < B2R f)%R) \/ (c = Some Eq /\ IZR i = B2R f) \/ (c = Some Gt /\ (B2R f < IZR i)%R)
  end.
