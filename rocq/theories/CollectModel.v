(** Collecting the terms of sums by powers of given expressions: /repo/components/core/wf/collect.cc. *)
From Coq Require Import String List ZArith Bool.
From Verif Require Import Outcome RationalModel ExprModel BuildModel FuncModel MapModel.
Import ListNotations.
Open Scope outcome_scope.

(** power.cc 498-504: as_base_and_exp. *)
Definition as_base_and_exp (e : expr) : expr * expr :=
  match e with EPow b x => (b, x) | _ => (e, EInt 1) end.

Section Collect.
Variable I : impl.
Variable n : nat.
(** The map exponents_to_mul, collect.cc 29-31: exponents and their coefficients. Its order of iteration is not
    specified. *)
Definition groups : Type := list (expr * list expr).
Variable iter : groups -> groups.

(** collect.cc 38-48 and 58-60: the exponent of the first factor that is a power of the term, and the other
    factors. *)
Fixpoint find_factor (t : expr) (l : list expr) : option (expr * list expr) :=
  match l with
  | [] => None
  | m :: r =>
      if ident (fst (as_base_and_exp m)) t then Some (snd (as_base_and_exp m), r)
      else match find_factor t r with
           | Some (x, r') => Some (x, m :: r')
           | None => None
           end
  end.

(** The entry of the map: collect.cc 63 and 70. *)
Fixpoint push_group (x c : expr) (g : groups) : groups :=
  match g with
  | [] => [(x, [c])]
  | (y, l) :: r => if key_eq I y x then (y, l ++ [c]) :: r else (y, l) :: push_group x c r
  end.

(** collect.cc 34-75: the exponent and the coefficient of one term of the sum. *)
Definition take_term (t child : expr) : outcome (option (expr * expr)) :=
  match child with
  | EMul l =>
      match find_factor t l with
      | None => Ok None
      | Some (x, others) => let* c := e_mul I n others in Ok (Some (x, c))
      end
  | _ =>
      if ident (fst (as_base_and_exp child)) t then Ok (Some (snd (as_base_and_exp child), EInt 1)) else Ok None
  end.

(** collect.cc 33-78: the terms that stay and the map. *)
Fixpoint split_terms (t : expr) (l : list expr) (g : groups) : outcome (list expr * groups) :=
  match l with
  | [] => Ok ([], g)
  | child :: r =>
      let* x := take_term t child in
      match x with
      | Some (x, c) => split_terms t r (push_group x c g)
      | None => let* d := split_terms t r g in Ok (child :: fst d, snd d)
      end
  end.

(** collect.cc 20-107: collect_addition_terms; reading the front of an empty span is undefined. *)
Fixpoint collect_add (terms : list expr) (l : list expr) : outcome expr :=
  match terms with
  | [] => UB
  | t :: ts =>
      let* d := split_terms t l [] in
      let sub c := match ts with [] => e_add I n c | _ => collect_add ts c end in
      let* rest :=
        match ts, fst d with
        | _ :: _, _ :: _ => let* r := collect_add ts (fst d) in Ok [r]
        | _, _ => Ok (fst d)
        end in
      let* more :=
        emap (fun xc : expr * list expr =>
          let* p := e_pow I n t (fst xc) in
          let* c := sub (snd xc) in
          e_mul2 I n p c) (iter (snd d)) in
      e_add I n (rest ++ more)
  end.

(** collect.cc 109-124: the visitor; it has no cache. *)
Section Visitor.
Variable terms : list expr.
Fixpoint collect_visit (e : expr) (u : unit) : outcome (expr * unit) :=
  match e with
  | EAdd l => let* d := tmap collect_visit l u in let* v := collect_add terms (fst d) in Ok (v, snd d)
  | _ => map_children I n collect_visit e u
  end.
End Visitor.

(** collect.cc 130-140: collect_many. *)
Definition collect_many (e : expr) (terms : list expr) : outcome expr :=
  match terms with
  | [] => Ok e
  | _ =>
      if existsb is_num terms then Throws
      else let* d := collect_visit terms e tt in Ok (fst d)
  end.

(** collect.cc 142-144: collect. *)
Definition collect (e t : expr) : outcome expr := collect_many e [t].
End Collect.
