(** What a scalar expression means, for a given assignment of real numbers to its variables.

    A value is a real number [Rv x]; [Fin], a finite complex number we do not track (the imaginary unit,
    the square root of a negative number, ...); or [Top], no information at all (undefined, complex
    infinity, doubles, poles, ...).  [refines a b] says that [a] carries at least the information of [b]:
    when [b] is the real number x, [a] is x as well. *)
From Coq Require Import String List ZArith Reals Bool Permutation.
From Verif Require Import Outcome RationalModel RationalSpec ExprModel.
Import ListNotations.
Open Scope R_scope.

Inductive val := Rv (x : R) | Fin | Top.

Definition refines (a b : val) : Prop :=
  match b with
  | Top => True
  | Fin => a <> Top
  | Rv x => a = Rv x
  end.

Definition vadd (a b : val) : val :=
  match a, b with
  | Top, _ | _, Top => Top
  | Rv x, Rv y => Rv (x + y)
  | _, _ => Fin
  end.

(** Zero times a finite number is zero. *)
Definition vmul (a b : val) : val :=
  match a, b with
  | Top, _ | _, Top => Top
  | Rv x, Rv y => Rv (x * y)
  | Rv x, Fin | Fin, Rv x => if Req_EM_T x 0 then Rv 0 else Fin
  | Fin, Fin => Fin
  end.

Definition vsum (l : list val) : val := fold_right vadd (Rv 0) l.
Definition vprod (l : list val) : val := fold_right vmul (Rv 1) l.

Definition is_integer_R (x : R) : Prop := exists z, x = IZR z.

(** Real powers: positive bases with any real exponent, zero with a positive exponent, negative bases with
    an integer exponent.  Negative bases with other exponents have a finite complex value. *)
Definition vpow (a b : val) : val :=
  match a, b with
  | Rv x, Rv y =>
      if Rlt_dec 0 x then Rv (Rpower x y)
      else if Req_EM_T x 0 then (if Rlt_dec 0 y then Rv 0 else Top)
      else if Req_EM_T y (IZR (Int_part y)) then Rv (powerRZ x (Int_part y))
      else Fin
  | Fin, Rv y => if Rlt_dec 0 y then Fin else Top
  | _, _ => Top
  end.

Definition sign_R (x : R) : R := if Rlt_dec 0 x then 1 else if Rlt_dec x 0 then -1 else 0.

(** The angle of the point (x, y), in (-pi, pi]. *)
Definition atan2_R (y x : R) : R :=
  if Rlt_dec 0 x then atan (y / x)
  else if Rlt_dec x 0 then (if Rle_dec 0 y then atan (y / x) + PI else atan (y / x) - PI)
  else if Rlt_dec 0 y then PI / 2 else - (PI / 2).

Definition vfun1 (f : fn) (x : R) : val :=
  match f with
  | Fcos => Rv (cos x)
  | Fsin => Rv (sin x)
  | Ftan => if Req_EM_T (cos x) 0 then Top else Rv (tan x)
  | Facos => if Rle_dec (-1) x then if Rle_dec x 1 then Rv (acos x) else Fin else Fin
  | Fasin => if Rle_dec (-1) x then if Rle_dec x 1 then Rv (asin x) else Fin else Fin
  | Fatan => Rv (atan x)
  | Fcosh => Rv (cosh x)
  | Fsinh => Rv (sinh x)
  | Ftanh => Rv (tanh x)
  | Facosh => if Rle_dec 1 x then Rv (ln (x + sqrt (x * x - 1))) else Fin
  | Fasinh => Rv (ln (x + sqrt (x * x + 1)))
  | Fatanh => if Req_EM_T (x * x) 1 then Top
              else if Rlt_dec (x * x) 1 then Rv (/ 2 * ln ((1 + x) / (1 - x))) else Fin
  | Flog => if Rlt_dec 0 x then Rv (ln x) else if Req_EM_T x 0 then Top else Fin
  | Fexp => Rv (exp x)
  | Fabs => Rv (Rabs x)
  | Fsign => Rv (sign_R x)
  | Ffloor => Rv (IZR (Int_part x))
  | Fatan2 => Top
  end.

Definition vfun (f : fn) (l : list val) : val :=
  match f, l with
  | Fatan2, [Rv y; Rv x] =>
      if Req_EM_T x 0 then (if Req_EM_T y 0 then Top else Rv (atan2_R y x)) else Rv (atan2_R y x)
  | Fatan2, _ => Top
  | _, [Rv x] => vfun1 f x
  | _, _ => Top
  end.

Definition vrel (o : relop) (a b : val) : val :=
  match a, b with
  | Rv x, Rv y =>
      match o with
      | RLt => if Rlt_dec x y then Rv 1 else Rv 0
      | RLe => if Rle_dec x y then Rv 1 else Rv 0
      | REq => if Req_EM_T x y then Rv 1 else Rv 0
      end
  | _, _ => Top
  end.

Definition vcond (c a b : val) : val :=
  match c with
  | Rv x => if Req_EM_T x 1 then a else if Req_EM_T x 0 then b else Top
  | _ => Top
  end.

(** The real arguments of a call, when they all are real. *)
Fixpoint reals (l : list val) : option (list R) :=
  match l with
  | [] => Some []
  | Rv x :: t => match reals t with Some xs => Some (x :: xs) | None => None end
  | _ :: _ => None
  end.

(** An assignment of the variables and an interpretation of the user's symbolic functions. *)
Record env := mk_env { ev : var -> R; ef : string -> list R -> R }.

Definition rat_val (q : rat) : R := IZR (num q) / IZR (den q).

Fixpoint eval (s : env) (e : expr) : val :=
  match e with
  | EFlt _ => Top
  | EInt z => Rv (IZR z)
  | ERat q => Rv (rat_val q)
  | ESym Euler => Rv (exp 1)
  | ESym Pi => Rv PI
  | EInf => Top
  | EImag => Fin
  | EUndef => Top
  | EVar v => Rv (ev s v)
  | EMul l => vprod (map (eval s) l)
  | EAdd l => vsum (map (eval s) l)
  | EPow b x => vpow (eval s b) (eval s x)
  | EFun f l => vfun f (map (eval s) l)
  | ESymFn n l => match reals (map (eval s) l) with Some xs => Rv (ef s n xs) | None => Top end
  | EUneval a => eval s a
  | ECond c a b => vcond (eval s c) (eval s a) (eval s b)
  | EIver c => eval s c
  | EDeriv _ _ _ => Top
  | ESubst _ _ _ => Top
  | EStop a => eval s a
  | EBool b => Rv (if b then 1 else 0)
  | ERel o l r => vrel o (eval s l) (eval s r)
  end.

(** Membership of a real value in a number set. *)
Definition in_set (s : number_set) (x : R) : Prop :=
  match s with
  | real_positive => 0 < x
  | real_non_negative => 0 <= x
  | _ => True
  end.

(** The assignment respects the declared sets of the variables. *)
Definition env_ok (s : env) : Prop := forall v, in_set (var_set v) (ev s v).

Definition is_bool (e : expr) : bool := match e with EBool _ | ERel _ _ _ => true | _ => false end.

(** The expressions the constructors build: 64-bit integers, reduced non-integer rationals, products of at
    least two operands of which at most one is a number, and that one not zero.  In addition, a logarithm of
    an argument that the number-set analysis classifies as positive must be positive under the assignment:
    the analysis takes it to be (see [C11_log_refuted]). *)
Fixpoint wf (s : env) (e : expr) : Prop :=
  match e with
  | EInt z => in_i64 z
  | ERat q => canonical (num q) (den q) /\ den q <> 1%Z
  | EMul l =>
      (2 <= List.length l)%nat /\ (List.length (filter is_num l) <= 1)%nat /\
      Forall (fun x => is_zero x = false) l /\
      fold_right (fun x P => wf s x /\ P) True l
  | EAdd l => fold_right (fun x P => wf s x /\ P) True l
  | EPow b x => wf s b /\ wf s x
  | EFun f l =>
      fold_right (fun x P => wf s x /\ P) True l /\
      match f with
      | Flog => Forall (fun a => determine_set a = real_positive -> forall x, eval s a = Rv x -> 1 < x) l
      | _ => True
      end
  | ESymFn _ l => fold_right (fun x P => wf s x /\ P) True l
  | EUneval a => wf s a
  | ECond c a b => wf s c /\ wf s a /\ wf s b
  | EIver c => is_bool c = true /\ wf s c
  | EDeriv f x _ => wf s f /\ wf s x
  | ESubst i t r => wf s i /\ wf s t /\ wf s r
  | EStop a => wf s a
  | ERel _ l r => wf s l /\ wf s r
  | _ => True
  end.

(** The parameters of the model: unordered maps visit every entry exactly once. *)
Definition impl_ok (I : impl) : Prop :=
  (forall l, Permutation (i_iter I l) l) /\
  (forall l, Permutation (i_iterz I l) l).
