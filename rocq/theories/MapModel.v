(** Rebuilding an expression from transformed operands (the map_children members), and the memoised traversals. *)
From Coq Require Import String List ZArith Bool.
From Verif Require Import Outcome RationalModel ExprModel BuildModel FuncModel.
Import ListNotations.

Section Map.
Variable I : impl.
Variable n : nat.

(** A transformation with a state (its cache). *)
Definition strans (St : Type) : Type := expr -> St -> outcome (expr * St).

(** transform_map: the operation is applied to every operand in order. *)
Definition tmap {St} (op : strans St) : list expr -> St -> outcome (list expr * St) :=
  fix go (l : list expr) (s : St) : outcome (list expr * St) :=
    match l with
    | [] => Ok ([], s)
    | a :: t =>
        let* v := op a s in
        let* w := go t (snd v) in
        Ok (fst v :: fst w, snd w)
    end.

(** The map_children members: addition.h 53-58, multiplication.h 61-64 and 203-228, power.h 20-23,
    function_expressions.h 48-52 and 153-157, unevaluated.h 17-20, conditional.h 19-28, casts.h 25-28,
    derivative_expression.h 37-40, substitute_expression.h 31-34, stop_derivative.h 31-34, relational.h 20-23.
    Leaves are returned unchanged by every visitor. Operands are visited from left to right. *)
Definition map_children {St} (op : strans St) (e : expr) (s : St) : outcome (expr * St) :=
  match e with
  | EAdd l => let* d := tmap op l s in let* v := e_add I n (fst d) in Ok (v, snd d)
  | EMul l => let* d := tmap op l s in let* v := e_mul I n (fst d) in Ok (v, snd d)
  | EPow a b =>
      let* u := op a s in let* w := op b (snd u) in
      let* v := e_pow I n (fst u) (fst w) in Ok (v, snd w)
  | EFun f l => let* d := tmap op l s in let* v := create_fn I n f (fst d) in Ok (v, snd d)
  | ESymFn f l => let* d := tmap op l s in Ok (ESymFn f (fst d), snd d)
  | EUneval a => let* u := op a s in let* v := uneval_fn (fst u) in Ok (v, snd u)
  | EStop a => let* u := op a s in let* v := stop_fn (fst u) in Ok (v, snd u)
  | ECond c a b =>
      let* u := op c s in
      match fst u with
      | EBool true => op a (snd u)
      | EBool false => op b (snd u)
      | _ =>
          let* x := op a (snd u) in let* y := op b (snd x) in
          let* v := cond_fn (fst u) (fst x) (fst y) in Ok (v, snd y)
      end
  | EIver c => let* u := op c s in let* v := iverson_fn (fst u) in Ok (v, snd u)
  | EDeriv f x k =>
      let* u := op f s in let* w := op x (snd u) in
      let* v := deriv_fn (fst u) (fst w) k in Ok (v, snd w)
  | ESubst i t r =>
      let* u := op i s in let* w := op t (snd u) in let* z := op r (snd w) in
      let* v := subst_fn (fst u) (fst w) (fst z) in Ok (v, snd z)
  | ERel o a b =>
      let* u := op a s in let* w := op b (snd u) in
      let* v := rel_fn o (fst u) (fst w) in Ok (v, snd w)
  | _ => Ok (e, s)
  end.

(** A traversal without memory: [pre] gives the replacement of an expression that is not descended into. *)
Section Plain.
Variable pre : expr -> option expr.
Fixpoint plain (e : expr) (u : unit) : outcome (expr * unit) :=
  match pre e with
  | Some r => Ok (r, u)
  | None => map_children plain e u
  end.
Definition transform (e : expr) : outcome expr := let* r := plain e tt in Ok (fst r).

(** expression_cache.h 79-90: get_or_insert; [emplace] keeps an entry that was inserted in the meantime. *)
Definition emplace (k v : expr) (c : list (expr * expr)) : expr * list (expr * expr) :=
  match lookup I k c with
  | Some w => (w, c)
  | None => (v, (k, v) :: c)
  end.

(** The same traversal with a cache. [keep e]: results for [e] are stored; [keep_pre]: replacements are stored
    too (substitute.cc 32-35 stores everything; substitute.cc 346-371 neither replacements nor conditions). *)
Variable keep : expr -> bool.
Variable keep_pre : bool.
Fixpoint memo (e : expr) (c : list (expr * expr)) : outcome (expr * list (expr * expr)) :=
  match (if keep e then lookup I e c else None) with
  | Some d => Ok (d, c)
  | None =>
      match pre e with
      | Some r => Ok (if keep e && keep_pre then emplace e r c else (r, c))
      | None =>
          let* r := map_children memo e c in
          Ok (if keep e then emplace e (fst r) (snd r) else r)
      end
  end.
End Plain.

(** Any visitor: on visiting an expression it asks for the results of others, one after the other, and answers.
    [work] is the rest of a visit. *)
Inductive work : Type :=
| Answer (r : outcome expr)
| Ask (e : expr) (k : expr -> work).

(** The visitor without a cache; [k] bounds the depth. *)
Section Visitor.
Variable visit : expr -> work.
Fixpoint run_plain (k : nat) (e : expr) : outcome expr :=
  match k with
  | O => NoFuel
  | S k =>
      (fix go (w : work) : outcome expr :=
         match w with
         | Answer r => r
         | Ask x f => let* d := run_plain k x in go (f d)
         end) (visit e)
  end.

(** With expression_cache.h 79-90 in front of every visit. *)
Fixpoint run_cached (k : nat) (e : expr) (c : list (expr * expr)) : outcome (expr * list (expr * expr)) :=
  match k with
  | O => NoFuel
  | S k =>
      match lookup I e c with
      | Some d => Ok (d, c)
      | None =>
          let* r :=
            (fix go (w : work) (c : list (expr * expr)) : outcome (expr * list (expr * expr)) :=
               match w with
               | Answer r => let* d := r in Ok (d, c)
               | Ask x f => let* d := run_cached k x c in go (f (fst d)) (snd d)
               end) (visit e) c in
          Ok (emplace e (fst r) (snd r))
      end
  end.
End Visitor.

(** ** Substitution *)
Definition is_boolean (e : expr) : bool := match e with EBool _ | ERel _ _ _ => true | _ => false end.

(** substitute.cc 319-333: add_substitution; an existing entry wins. *)
Definition add_substitution (m : list (expr * expr)) (t r : expr) : outcome (list (expr * expr)) :=
  match t with
  | EVar _ => Ok (snd (emplace t r m))
  | _ => Throws
  end.

Fixpoint add_substitutions (pairs m : list (expr * expr)) : outcome (list (expr * expr)) :=
  match pairs with
  | [] => Ok m
  | (t, r) :: rest => let* m' := add_substitution m t r in add_substitutions rest m'
  end.

(** substitute.cc 335-371: substitute_variables_visitor. *)
Definition subst_variables (m : list (expr * expr)) (e : expr) : outcome expr :=
  let* r := memo (fun x => if is_boolean x then None else lookup I x m) (fun x => negb (is_boolean x)) false e [] in
  Ok (fst r).

(** substitute.cc 24-93 and 445-460, for targets that are variables: the root is not looked up in the cache. *)
Definition subst_single (e t r : expr) : outcome expr :=
  match t with
  | EVar _ =>
      let pre x := if (type_rank x =? type_rank t)%Z && ident t x then Some r else None in
      let* d := (match pre e with
                 | Some v => Ok (v, [])
                 | None => map_children (memo pre (fun _ => true) true) e []
                 end) in Ok (fst d)
  | _ => Throws
  end.

(** Leaf nodes. *)
Definition is_leaf (e : expr) : bool :=
  match e with
  | EFlt _ | EInt _ | ERat _ | ESym _ | EInf | EImag | EUndef | EVar _ | EBool _ => true
  | _ => false
  end.

(** substitute.cc 388-424: is_valid_for_unordered_subs. *)
Definition unordered_ok (m : list (expr * expr)) (t r : expr) (force : bool) : bool :=
  match t with
  | EVar (VNamed _ _) =>
      match lookup I t m with
      | Some _ => false
      | None =>
          if negb (is_leaf r) && negb force then false
          else match lookup I r m with Some _ => false | None => true end
      end
  | _ => false
  end.

(** substitute.cc 426-443: create_unordered_subs_visitor. *)
Fixpoint unordered (pairs : list (expr * expr)) (force : bool) (m : list (expr * expr)) : outcome (option (list (expr * expr))) :=
  match pairs with
  | [] => Ok (Some m)
  | (t, r) :: rest =>
      if unordered_ok m t r force then let* m' := add_substitution m t r in unordered rest force m'
      else Ok None
  end.

(** substitute.cc 462-491: substitute_any for a list of variables and their replacements. *)
Fixpoint subst_ordered (e : expr) (pairs : list (expr * expr)) : outcome expr :=
  match pairs with
  | [] => Ok e
  | (t, r) :: rest => let* e' := subst_single e t r in subst_ordered e' rest
  end.
Definition substitute (e : expr) (pairs : list (expr * expr)) (force : bool) : outcome expr :=
  let* m := if (1 <? List.length pairs)%nat then unordered pairs force [] else Ok None in
  match m with
  | Some m => subst_variables m e
  | None => subst_ordered e pairs
  end.

End Map.
