(** Distribution of products over sums: /repo/components/core/wf/distribute.cc. *)
From Coq Require Import String List ZArith Bool.
From Verif Require Import Outcome CheckedIntModel RationalModel ExprModel BuildModel FuncModel DerivModel MapModel.
Import ListNotations.

Section Dist.
Variable I : impl.
Variable n : nat.

(** The visits of a list of operands, in order. *)
Fixpoint ask_all (l : list expr) (k : list expr -> work) : work :=
  match l with
  | [] => k []
  | a :: t => Ask a (fun d => ask_all t (fun ds => k (d :: ds)))
  end.
(** Go on with a result, or fail. *)
Definition andthen (o : outcome expr) (k : expr -> work) : work :=
  match o with
  | Ok d => k d
  | _ => Answer o
  end.

(** distribute.cc 66-73 for what is not a leaf: map_children with the visitor ([MapModel.map_children]). *)
Definition map_visit (e : expr) : work :=
  match e with
  | EAdd l => ask_all l (fun d => Answer (e_add I n d))
  | EMul l => ask_all l (fun d => Answer (e_mul I n d))
  | EPow a b => Ask a (fun u => Ask b (fun w => Answer (e_pow I n u w)))
  | EFun f l => ask_all l (fun d => Answer (create_fn I n f d))
  | ESymFn f l => ask_all l (fun d => Answer (Ok (ESymFn f d)))
  | EUneval a => Ask a (fun u => Answer (uneval_fn u))
  | EStop a => Ask a (fun u => Answer (stop_fn u))
  | ECond c a b =>
      Ask c (fun u =>
        match u with
        | EBool true => Ask a (fun x => Answer (Ok x))
        | EBool false => Ask b (fun y => Answer (Ok y))
        | _ => Ask a (fun x => Ask b (fun y => Answer (cond_fn u x y)))
        end)
  | EIver c => Ask c (fun u => Answer (iverson_fn u))
  | EDeriv f x k => Ask f (fun u => Ask x (fun w => Answer (deriv_fn u w k)))
  | ESubst i t r => Ask i (fun u => Ask t (fun w => Ask r (fun z => Answer (subst_fn u w z))))
  | ERel o a b => Ask a (fun u => Ask b (fun w => Answer (rel_fn o u w)))
  | _ => Answer (Ok e)
  end.

(** distribute.cc 93-101: expression_as_span. *)
Definition terms_of (e : expr) : list expr := match e with EAdd l => l | _ => [e] end.

(** distribute.cc 115-116: a product with a sum among its factors. *)
Definition has_sum (e : expr) : bool := match e with EMul l => existsb is_add l | _ => false end.

(** distribute.cc 110-126: the products of all pairs of terms; a product with a sum is distributed again. *)
Fixpoint products (ps : list (expr * expr)) (k : list expr -> work) : work :=
  match ps with
  | [] => k []
  | (x, y) :: t =>
      andthen (e_mul2 I n x y) (fun p =>
        if has_sum p then Ask p (fun d => products t (fun ds => k (d :: ds)))
        else products t (fun ds => k (p :: ds)))
  end.

(** distribute.cc 103-129: distribute_multiplied_terms for two expressions. *)
Definition dist2 (a b : expr) (k : expr -> work) : work :=
  products (list_prod (terms_of a) (terms_of b)) (fun ts => andthen (e_add I n ts) k).

(** distribute.cc 131-142: the factors are combined from the last to the first. *)
Fixpoint dist_factors (l : list expr) (k : expr -> work) : work :=
  match l with
  | [] => Answer Throws
  | [a] => k a
  | a :: t => dist_factors t (fun r => dist2 a r k)
  end.

(** distribute.cc 75-91: distribute_power, by repeated squaring. *)
Fixpoint dist_power (result base : expr) (p : positive) (k : expr -> work) : work :=
  match p with
  | xH => dist2 result base k
  | xO p => dist2 base base (fun b => dist_power result b p k)
  | xI p => dist2 result base (fun r => dist2 base base (fun b => dist_power r b p k))
  end.
(** The assertion that the power is positive throws. *)
Definition dist_power_abs (base : expr) (m : Z) (k : expr -> work) : work :=
  match m with
  | Zpos p => dist_power (EInt 1) base p k
  | _ => Answer Throws
  end.
(** distribute.cc 44-49 and 58-63: negative exponents. *)
Definition dist_signed (base : expr) (m sign : Z) : work :=
  dist_power_abs base m (fun d => if (0 <? sign)%Z then Answer (Ok d) else Answer (e_pow I n d (EInt (-1)))).

(** distribute.cc 34-64: powers. *)
Definition dist_pow (b x : expr) : work :=
  match b, x with
  | EAdd _, EInt z =>
      match ck_abs z with
      | Ok m => dist_signed b m z
      | _ => Answer Throws
      end
  | EAdd _, ERat q =>
      if (den q =? 2)%Z then
        match ck_abs (num q) with
        | Ok m => if (1 <? m)%Z then andthen (sqrt_fn I n b) (fun r => dist_signed r m (num q)) else Answer (e_pow I n b x)
        | _ => Answer Throws
        end
      else Answer (e_pow I n b x)
  | _, _ => Answer (e_pow I n b x)
  end.

(** distribute.cc 14-64: the visitor. *)
Definition dist_visit (e : expr) : work :=
  match e with
  | EMul [] => Answer Throws
  | EMul l => ask_all l (fun ds => dist_factors ds (fun d => Answer (Ok d)))
  | EPow b x => Ask b (fun b' => Ask x (fun x' => dist_pow b' x'))
  | _ => map_visit e
  end.

(** distribute.cc 144; [k] bounds the depth of the visits.  The root is visited without the cache, which holds
    nothing yet. *)
Definition distribute (k : nat) (e : expr) : outcome expr := run_plain dist_visit k e.
Definition distribute_cached (k : nat) (e : expr) : outcome expr :=
  let* r := run_cached I dist_visit k e [] in Ok (fst r).
End Dist.
