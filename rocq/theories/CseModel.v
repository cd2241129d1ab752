(** Common subexpression elimination on expressions: /repo/components/core/wf/cse.{h,cc}. *)
From Coq Require Import String List ZArith Bool Arith.
From Verif Require Import Outcome RationalModel ExprModel BuildModel FuncModel DerivModel MapModel.
Import ListNotations.
Open Scope outcome_scope.
Open Scope nat_scope.

Section Cse.
Variable I : impl.
Variable n : nat.

(** cse.cc 46-50: the counts and the set of visited expressions (one set per type of expression in C++; scalar and
    boolean expressions are never identical). *)
Record counter := mk_counter { c_counts : list (expr * nat); c_visited : list expr }.

Fixpoint count_of (e : expr) (l : list (expr * nat)) : nat :=
  match l with
  | [] => 0
  | (k, c) :: t => if key_eq I k e then c else count_of e t
  end.
Fixpoint increment (e : expr) (l : list (expr * nat)) : list (expr * nat) :=
  match l with
  | [] => [(e, 1)]
  | (k, c) :: t => if key_eq I k e then (k, S c) :: t else (k, c) :: increment e t
  end.
Definition visited (e : expr) (l : list expr) : bool := existsb (fun k => key_eq I k e) l.

(** cse.cc 29-37: record_count; [visit] descends into a child that was not seen before. *)
Definition record_count (visit : expr -> counter -> counter) (child : expr) (c : counter) : counter :=
  let c1 := if is_boolean child then c else mk_counter (increment child (c_counts c)) (c_visited c) in
  if visited child (c_visited c1) then c1
  else visit child (mk_counter (c_counts c1) (child :: c_visited c1)).
Definition record_all (visit : expr -> counter -> counter) : list expr -> counter -> counter :=
  fix go (l : list expr) (c : counter) : counter :=
    match l with
    | [] => c
    | a :: t => go t (record_count visit a c)
    end.

(** cse.cc 24-27: the visitor. *)
Fixpoint count_visit (e : expr) (c : counter) : counter :=
  match e with
  | EMul l | EAdd l | EFun _ l | ESymFn _ l => record_all count_visit l c
  | EPow a b | EDeriv a b _ | ERel _ a b => record_count count_visit b (record_count count_visit a c)
  | EUneval a | EIver a | EStop a => record_count count_visit a c
  | ECond a b d | ESubst a b d => record_count count_visit d (record_count count_visit b (record_count count_visit a c))
  | _ => c
  end.

(** cse.h 63-66: the cache and the replacements. *)
Record cse_state := mk_cse { s_cache : list (expr * expr); s_repl : list (expr * expr) }.

Variable mkvar : nat -> expr.
Variable least : nat.
Variable counts : list (expr * nat).

(** cse.cc 76-84: a new variable for an expression that occurs often enough. An expression that was never counted
    is not in the map and is kept even when [least] is zero. *)
Definition counted (e : expr) : bool := existsb (fun kc => key_eq I (fst kc) e) counts.
Definition replace_counted (e mapped : expr) (st : cse_state) : expr * cse_state :=
  if negb (is_boolean e) && counted e && (least <=? count_of e counts) then
    let v := mkvar (List.length (s_repl st)) in
    (v, mk_cse (s_cache st) (s_repl st ++ [(v, mapped)]))
  else (mapped, st).

(** cse.cc 63-93: the cache in front (expression_cache.h 79-90), leaves unchanged, otherwise the children first. *)
Fixpoint cse_visit (e : expr) (st : cse_state) : outcome (expr * cse_state) :=
  match lookup I e (s_cache st) with
  | Some d => Ok (d, st)
  | None =>
      let* r :=
        if is_leaf e then Ok (e, st)
        else
          let* m := map_children I n cse_visit e st in
          Ok (replace_counted e (fst m) (snd m)) in
      let c := emplace I e (fst r) (s_cache (snd r)) in
      Ok (fst c, mk_cse (snd c) (s_repl (snd r)))
  end.

(** The root is not looked up. *)
Definition cse_root (e : expr) : outcome (expr * cse_state) :=
  if is_leaf e then Ok (e, mk_cse [] [])
  else
    let* m := map_children I n cse_visit e (mk_cse [] []) in
    Ok (replace_counted e (fst m) (snd m)).
End Cse.

(** cse.cc 100-109 and 111-115: eliminate_subexpressions; the expression and the replacements. *)
Definition eliminate_subexpressions (I : impl) (n : nat) (mkvar : nat -> expr) (least : nat) (e : expr) :
  outcome (expr * list (expr * expr)) :=
  let counts := c_counts (count_visit I e (mk_counter [] [])) in
  let* r := cse_root I n mkvar least counts e in
  Ok (fst r, s_repl (snd r)).

(** cse.cc 58-60: the default variables. *)
Definition digit (k : nat) : Ascii.ascii := Ascii.ascii_of_nat (48 + k).
Fixpoint decimal (fuel k : nat) (acc : string) : string :=
  match fuel with
  | O => acc
  | S f => let acc' := String (digit (k mod 10)) acc in if k / 10 =? 0 then acc' else decimal f (k / 10) acc'
  end.
Definition default_variable (k : nat) : expr := EVar (VNamed ("v" ++ decimal (S k) k EmptyString)%string unknown_set).
