(** Full-pivoting LU factorisation and the determinant: components/core/wf/matrix_functions.cc 164-453.

    The storage that the C++ code works on through spans is a list of rows here; the recursion returns the rows that
    the C++ code leaves behind in the spans. Sizes and indices are natural numbers (std::size_t without overflow). *)
From Coq Require Import ZArith List Bool Arith.
From Verif Require Import Outcome MatrixModel.
Import ListNotations.
Open Scope nat_scope.
Open Scope outcome_scope.

(** 166-234 *)
Record permutation := mk_perm { p_ : list nat; num_swaps : nat }.
(** 170-173 *)
Definition perm_id (size : nat) : permutation := mk_perm (seq 0 size) 0.
(** std::find *)
Fixpoint find_index (x : nat) (l : list nat) : nat :=
  match l with
  | [] => 0
  | y :: t => if Nat.eqb y x then 0 else S (find_index x t)
  end.
(** 177-178; an index out of range is undefined behaviour. *)
Definition permuted_row (P : permutation) (i : nat) : outcome nat :=
  match nth_error (p_ P) i with Some k => Ok k | None => UB end.
(** 181-184 *)
Definition permuted_row_transposed (P : permutation) (i : nat) : nat := find_index i (p_ P).
(** std::swap of two elements *)
Fixpoint set_nth {A} (l : list A) (i : nat) (x : A) : list A :=
  match l, i with
  | [], _ => []
  | _ :: t, O => x :: t
  | y :: t, S i => y :: set_nth t i x
  end.
Definition swap_nth {A} (l : list A) (i j : nat) : outcome (list A) :=
  match nth_error l i, nth_error l j with
  | Some x, Some y => Ok (set_nth (set_nth l i y) j x)
  | _, _ => UB
  end.
(** 189-200 *)
Definition shift_down_and_swap (P : permutation) (row : nat) : outcome permutation :=
  let p := 0 :: map S (p_ P) in
  if Nat.eqb row 0 then Ok (mk_perm p (num_swaps P))
  else if negb (Nat.ltb row (length p)) then Throws
  else let* p' := swap_nth p 0 row in Ok (mk_perm p' (S (num_swaps P))).
(** 202-214 *)
Definition shift_down_and_swap_right (P : permutation) (row : nat) : outcome permutation :=
  let p := 0 :: map S (p_ P) in
  let it := find_index row p in
  if Nat.eqb it (length p) then Throws
  else if Nat.eqb it 0 then Ok (mk_perm p (num_swaps P))
  else let* p' := swap_nth p it 0 in Ok (mk_perm p' (S (num_swaps P))).
(** 225-231 *)
Definition odd_swaps (P : permutation) : bool := Nat.odd (num_swaps P).

Section Lu.
Context {E : Type}.
Variable ops : mat_ops E.

(** 239-252 *)
Fixpoint find_pivot_col (row : list E) : option nat :=
  match row with
  | [] => None
  | e :: t => if negb (op_is_zero ops e) then Some 0 else option_map S (find_pivot_col t)
  end.
Fixpoint find_pivot (U : list (list E)) : option (nat * nat) :=
  match U with
  | [] => None
  | row :: t =>
      match find_pivot_col row with
      | Some c => Some (0, c)
      | None => match find_pivot t with Some (r, c) => Some (S r, c) | None => None end
      end
  end.

Definition unit_row (n i : nat) : list E := map (fun j => if Nat.eqb i j then op_one ops else op_zero ops) (seq 0 n).
Definition unit_rows (n : nat) : list (list E) := map (unit_row n) (seq 0 n).

(** The first elements and the rest of each row. *)
Fixpoint split_rows (rows : list (list E)) : outcome (list E * list (list E)) :=
  match rows with
  | [] => Ok ([], [])
  | [] :: _ => UB
  | (c :: row) :: t => let* r := split_rows t in Ok (c :: fst r, row :: snd r)
  end.
(** 315-319: one row of the bottom-right panel. *)
Fixpoint eliminate (pivot c : E) (r_t row : list E) : outcome (list E) :=
  match r_t, row with
  | r :: r_t, u :: row =>
      let* cr := op_mul ops c r in
      let* q := op_div ops cr pivot in
      let* u' := op_sub ops u q in
      let* t := eliminate pivot c r_t row in
      Ok (u' :: t)
  | _, _ => Ok []
  end.
Fixpoint eliminate_rows (pivot : E) (r_t cs : list E) (rows : list (list E)) : outcome (list (list E)) :=
  match cs, rows with
  | c :: cs, row :: rows =>
      let* row' := eliminate pivot c r_t row in
      let* t := eliminate_rows pivot r_t cs rows in
      Ok (row' :: t)
  | _, _ => Ok []
  end.
(** 328-330 *)
Definition lower_column (P : permutation) (c : list E) (pivot : E) : outcome (list E) :=
  each (fun i => match nth_error c (permuted_row_transposed P i) with
                 | Some e => op_div ops e pivot
                 | None => UB
                 end) (seq 0 (length c)).
(** 341-343 *)
Definition permute_row (Q : permutation) (r_t : list E) : outcome (list E) :=
  each (fun j => let* k := permuted_row Q j in match nth_error r_t k with Some e => Ok e | None => UB end) (seq 0 (length r_t)).

(** 271-348; [n] is the number of rows, the result is P, L, U and Q. *)
Fixpoint lu (n : nat) (cols : nat) (U : list (list E)) : outcome (permutation * list (list E) * list (list E) * permutation) :=
  match n with
  | O => Throws
  | S O => Ok (perm_id 1, [[op_one ops]], U, perm_id cols)
  | S m =>
      match find_pivot U with
      | None => Ok (perm_id n, unit_rows n, U, perm_id cols)
      | Some (p_row, p_col) =>
          let* U := (if Nat.eqb p_row 0 then Ok U else swap_nth U p_row 0) in
          let* U := (if Nat.eqb p_col 0 then Ok U else each (fun row => swap_nth row p_col 0) U) in
          match U with
          | (pivot :: r_t) :: rest =>
              let* ci := split_rows rest in
              let c := fst ci in
              let* inner := eliminate_rows pivot r_t c (snd ci) in
              let* res := lu m (pred cols) inner in
              let '(P, L', U', Q) := res in
              if negb (Nat.eqb (length (p_ P)) (length c)) then Throws else
              let* l := lower_column P c pivot in
              if negb (Nat.eqb (length (p_ Q)) (length r_t)) then Throws else
              let* r := permute_row Q r_t in
              let* P' := shift_down_and_swap P p_row in
              let* Q' := shift_down_and_swap_right Q p_col in
              Ok (P', (op_one ops :: repeat (op_zero ops) m) :: map (fun xr => fst xr :: snd xr) (combine l L'),
                  (pivot :: r) :: map (cons (op_zero ops)) U', Q')
          | _ => UB
          end
      end
  end.

(** The rows of a matrix, and back. *)
Fixpoint chunks (n cols : nat) (data : list E) : list (list E) :=
  match n with
  | O => []
  | S n => firstn cols data :: chunks n cols (skipn cols data)
  end.
(** 363-399 *)
Definition lu_matrix (A : matrix E) : outcome (permutation * list (list E) * list (list E) * permutation) :=
  if (m_cols A <? m_rows A)%Z then Throws
  else lu (Z.to_nat (m_rows A)) (Z.to_nat (m_cols A)) (chunks (Z.to_nat (m_rows A)) (Z.to_nat (m_cols A)) (m_data A)).
(** 350-361 *)
Definition matrix_of_permutation (P : permutation) : outcome (matrix E) :=
  let n := length (p_ P) in
  make_matrix (Z.of_nat n) (Z.of_nat n) (concat (map (unit_row n) (p_ P))).
(** 401-414 *)
Definition factorize_full_piv_lu (A : matrix E) : outcome (matrix E * matrix E * matrix E * matrix E) :=
  let* r := lu_matrix A in
  let '(P, L, U, Q) := r in
  let* L := make_matrix (m_rows A) (m_rows A) (concat L) in
  let* U := make_matrix (m_rows A) (m_cols A) (concat U) in
  let* P := matrix_of_permutation P in
  let* Q := matrix_of_permutation Q in
  Ok (P, L, U, Q).

(** 447-451 *)
Fixpoint times_diagonal (prod : E) (i : nat) (U : list (list E)) : outcome E :=
  match U with
  | [] => Ok prod
  | row :: t =>
      match nth_error row i with
      | Some u => let* p := op_mul ops prod u in times_diagonal p (S i) t
      | None => UB
      end
  end.
(** 416-453 *)
Definition determinant (A : matrix E) : outcome E :=
  if negb (m_rows A =? m_cols A)%Z then Throws
  else if (m_rows A =? 1)%Z then get_unchecked A 0 0
  else if (m_rows A =? 2)%Z then
    let* a := get_unchecked A 0 0 in let* b := get_unchecked A 0 1 in
    let* c := get_unchecked A 1 0 in let* d := get_unchecked A 1 1 in
    let* ad := op_mul ops a d in let* bc := op_mul ops b c in op_sub ops ad bc
  else if (m_rows A =? 3)%Z then
    let* a00 := get_unchecked A 0 0 in let* a01 := get_unchecked A 0 1 in let* a02 := get_unchecked A 0 2 in
    let* a10 := get_unchecked A 1 0 in let* a11 := get_unchecked A 1 1 in let* a12 := get_unchecked A 1 2 in
    let* a20 := get_unchecked A 2 0 in let* a21 := get_unchecked A 2 1 in let* a22 := get_unchecked A 2 2 in
    let mul3 x y z := (let* p := op_mul ops x y in op_mul ops p z) in
    let* t0 := mul3 a00 a11 a22 in
    let* t1 := mul3 a00 a12 a21 in
    let* t2 := mul3 a01 a10 a22 in
    let* t3 := mul3 a01 a12 a20 in
    let* t4 := mul3 a02 a10 a21 in
    let* t5 := mul3 a02 a11 a20 in
    let* s := op_sub ops t0 t1 in
    let* s := op_sub ops s t2 in
    let* s := op_add ops s t3 in
    let* s := op_add ops s t4 in
    op_sub ops s t5
  else
    let* r := lu_matrix A in
    let '(P, _, U, Q) := r in
    times_diagonal (if xorb (odd_swaps P) (odd_swaps Q) then op_neg_one ops else op_one ops) 0 U.
End Lu.
