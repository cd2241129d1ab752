(** The search for common factors in sums of products.
    /repo/components/core/wf/code_generation/factorizer.h and factorizer.cc.
    A factor_bits (std::bitset<64>) is a binary natural number below 2^64.  The ranked steps and the steps of a
    factorization are always sorted when std::lower_bound is called on them, so that it finds the first position
    where its predicate fails: that position is searched from the front. *)
From Coq Require Import List Arith NArith Bool.
From Verif Require Import Outcome.
Import ListNotations.
Open Scope outcome_scope.
Open Scope nat_scope.

(** factorizer.h 19-20. *)
Definition MAX_VARS_OR_TERMS := 64.
Definition MAX_FACTORIZATION_STEPS := 8.

(** factor_bits, factorizer.h 25. *)
Definition bits := N.
Definition bit (b : bits) (i : nat) : bool := N.testbit_nat b i.
Definition set_bit (b : bits) (i : nat) : bits := N.setbit b (N.of_nat i).
(** bitset::count and bitset::none. *)
Definition count (b : bits) : nat := length (filter (bit b) (seq 0 MAX_VARS_OR_TERMS)).
Definition none (b : bits) : bool := N.eqb b 0.

Definition step := (bits * bits)%type.

(** factorization, factorizer.h 31-83. *)
Record factorization := mkf { f_steps : list step; f_score : nat }.
Definition f_empty : factorization := mkf [] 0.

(** order_bit_tuples, factorizer.cc 22-31. *)
Definition step_lt (a b : step) : bool :=
  N.ltb (fst a) (fst b) || (N.eqb (fst a) (fst b) && N.ltb (snd a) (snd b)).
Definition step_eqb (a b : step) : bool := N.eqb (fst a) (fst b) && N.eqb (snd a) (snd b).

Fixpoint insert_step (x : step) (l : list step) : list step :=
  match l with
  | [] => [x]
  | h :: t => if step_lt h x then h :: insert_step x t else x :: l
  end.

(** factorization::push, factorizer.cc 44-64 (release build). *)
Definition f_push (f : factorization) (vars terms : bits) : factorization :=
  mkf (insert_step (vars, terms) (f_steps f)) (f_score f + count vars * (count terms - 1)).

(** fill_bits, factorizer.cc 224-230. *)
Definition fill_bits (n : nat) : bits := fold_left set_bit (seq 0 n) 0%N.

(** unfactored_terms, factorizer.cc 66-75. *)
Definition unfactored_terms (f : factorization) (num_terms : nat) : bits :=
  fold_left (fun r (s : step) => N.ldiff r (snd s)) (f_steps f) (fill_bits num_terms).

(** operator==, factorizer.h 62-65. *)
Fixpoint steps_eqb (a b : list step) : bool :=
  match a, b with
  | [], [] => true
  | x :: s, y :: t => step_eqb x y && steps_eqb s t
  | _, _ => false
  end.

(** factors_table, factorizer.cc 89-109. *)
Record table := mkt { vars_to_terms : list bits; terms_to_vars : list bits }.
Definition get_var (t : table) (i : nat) : bits := nth i (vars_to_terms t) 0%N.
Definition get_term (t : table) (i : nat) : bits := nth i (terms_to_vars t) 0%N.

(** find_jointly_factorizable_variables, factorizer.cc 113-132.  The assertion var_index < num_vars holds because
    the caller counts up to num_vars. *)
Definition find_jointly (v : nat) (t : table) (remaining_terms remaining_vars : bits) : bits * bits :=
  let suitable_terms := N.land remaining_terms (get_var t v) in
  if count suitable_terms <=? 1 then (0%N, suitable_terms)
  else
    (fold_left (fun vs i => if bit suitable_terms i then N.land vs (get_term t i) else vs)
               (seq 0 (length (terms_to_vars t))) remaining_vars,
     suitable_terms).

(** scored_factorization_step, factorizer.cc 134-141. *)
Record sstep := mks { ss_var : nat; ss_score : nat; ss_step : step }.

(** The insertion of factorizer.cc 166-179. *)
Fixpoint insert_ranked (x : sstep) (l : list sstep) : list sstep :=
  match l with
  | [] => [x]
  | h :: t => if ss_score x <? ss_score h then h :: insert_ranked x t
              else if N.eqb (fst (ss_step h)) (fst (ss_step x)) then l else x :: l
  end.

(** rank_factorization_steps, factorizer.cc 145-185.  Cutting back to [max_to_return] when nothing was inserted
    changes nothing. *)
Definition rank_step (t : table) (remaining_vars remaining_terms : bits) (max_to_return : nat)
    (ranked : list sstep) (v : nat) : list sstep :=
  if bit remaining_vars v then
    let (fv, ft) := find_jointly v t remaining_terms remaining_vars in
    if none fv then ranked
    else firstn max_to_return (insert_ranked (mks v (count fv * (count ft - 1)) (fv, ft)) ranked)
  else ranked.
Definition rank_steps (t : table) (remaining_vars remaining_terms : bits) (max_to_return : nat) : list sstep :=
  fold_left (rank_step t remaining_vars remaining_terms max_to_return) (seq 0 (length (vars_to_terms t))) [].

(** factorize_and_recurse, factorizer.cc 187-221.  The recursion is as deep as the number of steps, at most
    [MAX_FACTORIZATION_STEPS] ([NoFuel] is never reached).  State: the visited set and the outputs. *)
Definition search_state := (list (list step) * list factorization)%type.
Fixpoint recurse (fuel : nat) (t : table) (bf : nat) (s : sstep) (remaining_vars remaining_terms : bits)
    (parent : factorization) (st : search_state) : outcome search_state :=
  match fuel with
  | O => NoFuel
  | S fuel' =>
      let (visited, outputs) := st in
      let result := f_push parent (fst (ss_step s)) (snd (ss_step s)) in
      if existsb (steps_eqb (f_steps result)) visited then Ok st
      else
        let visited := f_steps result :: visited in
        let remaining_terms := N.ldiff remaining_terms (snd (ss_step s)) in
        let remaining_vars := N.clearbit remaining_vars (N.of_nat (ss_var s)) in
        if none remaining_terms || (length (f_steps result) =? MAX_FACTORIZATION_STEPS)
        then Ok (visited, outputs ++ [result])
        else
          match rank_steps t remaining_vars remaining_terms bf with
          | [] => Ok (visited, outputs ++ [result])
          | ranked =>
              (fix each l st := match l with
                                | [] => Ok st
                                | x :: l' =>
                                    let* st := recurse fuel' t bf x remaining_vars remaining_terms result st in
                                    each l' st
                                end) ranked (visited, outputs)
          end
  end.

(** std::stable_sort with the comparison of factorizer.cc 277-290. *)
Definition better (a b : factorization) : bool :=
  if f_score b <? f_score a then true
  else if f_score a <? f_score b then false
  else length (f_steps a) <? length (f_steps b).
Fixpoint insert_fact (x : factorization) (l : list factorization) : list factorization :=
  match l with
  | [] => [x]
  | h :: t => if better h x || negb (better x h) then h :: insert_fact x t else x :: l
  end.
Definition sort_facts (l : list factorization) : list factorization := fold_left (fun acc x => insert_fact x acc) l [].

(** The transposition of factorizer.cc 244-255. *)
Definition transpose (terms : list bits) (num_vars : nat) : list bits :=
  map (fun v => fold_left (fun m i => if bit (nth i terms 0%N) v then set_bit m i else m) (seq 0 (length terms)) 0%N)
      (seq 0 num_vars).

(** compute_ranked_factorizations, factorizer.cc 232-292. *)
Definition compute_ranked (terms : list bits) (num_vars bf : nat) : outcome (list factorization) :=
  if (num_vars <=? MAX_VARS_OR_TERMS) && (length terms <=? MAX_VARS_OR_TERMS) then
    if (length terms =? 0) || (num_vars =? 0) then Ok []
    else
      let t := mkt (transpose terms num_vars) terms in
      let remaining_vars := fill_bits num_vars in
      let remaining_terms := fill_bits (length terms) in
      let* st := (fix each l st := match l with
                                   | [] => Ok st
                                   | x :: l' =>
                                       let* st := recurse (S MAX_FACTORIZATION_STEPS) t bf x remaining_vars
                                                    remaining_terms f_empty st in
                                       each l' st
                                   end) (rank_steps t remaining_vars remaining_terms bf) ([], []) in
      Ok (sort_facts (snd st))
  else Throws.

(** create_term_bitsets, factorizer.cc 294-313: bitset::set throws beyond the size of the bitset. *)
Definition create_term_bitsets (terms : list (list nat)) : outcome (list bits * nat) :=
  if existsb (fun l => match l with [] => true | _ => false end) terms then Throws
  else
    let max_var := fold_left (fun m l => Nat.max m (fold_left Nat.max l 0)) terms 0 in
    if existsb (existsb (fun v => MAX_VARS_OR_TERMS <=? v)) terms then Throws
    else Ok (map (fun l => fold_left set_bit l 0%N) terms, S max_var).
