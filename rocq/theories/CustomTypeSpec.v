(** What reading a member of an object means. *)
From Coq Require Import List Arith Bool String.
From Verif Require Import CustomTypeModel.
Import ListNotations.

(** Member of a struct object by name. *)
Fixpoint member {X} (fs : list (string * obj X)) (name : string) : option (obj X) :=
  match fs with
  | [] => None
  | (n, o) :: fs' => if String.eqb n name then Some o else member fs' name
  end.

(** The object reached by one access; a matrix element is addressed by (row, column), stored row-major. *)
Definition read1 {X} (o : obj X) (a : access) : option (obj X) :=
  match o, a with
  | OCustom _ fs, AField _ name => member fs name
  | OMatrix r c xs, AMatrix r' c' e =>
      if (r =? r') && (c =? c') then
        let row := Nat.div e c in let col := Nat.modulo e c in
        if (row <? r) then option_map OScalar (nth_error xs (row * c + col)) else None
      else None
  | _, _ => None
  end.
Fixpoint read {X} (o : obj X) (path : list access) : option X :=
  match path with
  | [] => match o with OScalar x => Some x | _ => None end
  | a :: path' => match read1 o a with Some o' => read o' path' | None => None end
  end.

(** The numeric types of the scalar leaves in declaration order. *)
Fixpoint leaf_types (t : ty) : list numeric :=
  match t with
  | TScalar n => [n]
  | TMatrix r c => repeat floating_point (r * c)
  | TCustom _ fields =>
      (fix go (fs : list (string * ty)) : list numeric :=
         match fs with [] => [] | (_, ft) :: fs' => leaf_types ft ++ go fs' end) fields
  end.

(** [member_path t path]: [path] leads from an object of type [t] to a scalar. *)
Inductive member_path : ty -> list access -> Prop :=
| MP_scalar n : member_path (TScalar n) []
| MP_matrix r c e : e < r * c -> member_path (TMatrix r c) [AMatrix r c e]
| MP_field name fields fname ft path : In (fname, ft) fields -> member_path ft path ->
    member_path (TCustom name fields) (AField (TCustom name fields) fname :: path).

(** Values of compound expressions: a list of reals/numbers, one per flat index. *)
Section Values.
  Context {V : Type} (arg : nat -> nat -> V) (other : nat -> V) (dflt : V).
  Fixpoint sem_c (c : compound) (i : nat) {struct c} : V :=
    match c with
    | CArg _ id => arg id i
    | CConstruct _ args =>
        (fix go (l : list sexpr) (i : nat) : V :=
           match l with [] => dflt | a :: l' => match i with O => sem_s a | S i' => go l' i' end end) args i
    end
  with sem_s (s : sexpr) {struct s} : V :=
    match s with
    | SElem c i => sem_c c i
    | SOther id => other id
    end.
End Values.
