(** Matrices: components/core/wf/expressions/matrix.h and matrix.cc, the shape functions of matrix_functions.cc and
    the operators of matrix_expression.cc.

    The elements are of any type with the operations of scalar expressions ([mat_ops]); the scalar operations may
    throw. Indices are std::ptrdiff_t. Moves and reservations of memory have no counterpart, except that a request
    for a negative number of elements throws (std::length_error). Bounds of memory are not modelled. *)
From Coq Require Import ZArith List Bool.
From Verif Require Import Outcome.
Import ListNotations.
Open Scope Z_scope.
Open Scope outcome_scope.

(** matrix.h 16-82 *)
Record matrix (E : Type) := mk_matrix { m_rows : Z; m_cols : Z; m_data : list E }.
Arguments mk_matrix {E}. Arguments m_rows {E}. Arguments m_cols {E}. Arguments m_data {E}.

Record mat_ops (E : Type) := mk_ops {
  op_zero : E; op_one : E; op_neg_one : E; op_is_zero : E -> bool;
  op_mul : E -> E -> outcome E; op_add : E -> E -> outcome E; op_sub : E -> E -> outcome E; op_div : E -> E -> outcome E;
  op_sum : list E -> outcome E }.
Arguments op_zero {E}. Arguments op_one {E}. Arguments op_neg_one {E}. Arguments op_is_zero {E}. Arguments op_mul {E}. Arguments op_add {E}.
Arguments op_sub {E}. Arguments op_div {E}. Arguments op_sum {E}.

Section Matrix.
Context {E : Type}.

(** matrix.cc 12-20: the product of the dimensions is taken modulo 2^64. *)
Definition make_matrix (rows cols : Z) (data : list E) : outcome (matrix E) :=
  if negb (Z.of_nat (length data) =? ((rows mod 2 ^ 64) * (cols mod 2 ^ 64)) mod 2 ^ 64) then Throws
  else if (rows <? 0) || (cols <? 0) then Throws
  else Ok (mk_matrix rows cols data).

(** matrix.h 73-75 and 40-47: no bounds checking. *)
Definition get_unchecked (m : matrix E) (i j : Z) : outcome E :=
  let* p := mach_mul i (m_cols m) in
  let* k := mach_add p j in
  if k <? 0 then UB else match nth_error (m_data m) (Z.to_nat k) with Some e => Ok e | None => UB end.

(** matrix.h 97-103 *)
Definition at_ (m : matrix E) (i j : Z) : outcome E :=
  if (m_rows m <=? i) || (i <? 0) || (m_cols m <=? j) || (j <? 0) then Throws else get_unchecked m i j.

(** matrix.h 85-95 *)
Definition at_vec (m : matrix E) (i : Z) : outcome E :=
  if negb (m_rows m =? 1) && negb (m_cols m =? 1) then Throws
  else if (i <? 0) || (Z.of_nat (length (m_data m)) <=? i) then Throws
  else match nth_error (m_data m) (Z.to_nat i) with Some e => Ok e | None => UB end.

(** The values 0, 1, ..., n - 1 of a loop variable. *)
Definition upto (n : Z) : list Z := map Z.of_nat (seq 0 (Z.to_nat n)).
Fixpoint each {A B} (f : A -> outcome B) (l : list A) : outcome (list B) :=
  match l with
  | [] => Ok []
  | x :: t => let* y := f x in let* r := each f t in Ok (y :: r)
  end.
(** matrix.h 116-123: the elements pushed by the callback. *)
Definition iter_matrix (rows cols : Z) (f : Z -> Z -> outcome E) : outcome (list E) :=
  each (fun ij => f (fst ij) (snd ij)) (list_prod (upto rows) (upto cols)).

(** matrix.h 126-133 *)
Definition create_matrix (rows cols : Z) (f : Z -> Z -> outcome E) : outcome (matrix E) :=
  let* data := iter_matrix rows cols f in make_matrix rows cols data.

(** matrix.cc 22-35 *)
Definition get_block (m : matrix E) (row col nrows ncols : Z) : outcome (matrix E) :=
  if row <? 0 then Throws else
  let* er := mach_add row nrows in
  if m_rows m <? er then Throws else
  if col <? 0 then Throws else
  let* ec := mach_add col ncols in
  if m_cols m <? ec then Throws else
  let* n := mach_mul nrows ncols in
  if n <? 0 then Throws else
  let* data := iter_matrix nrows ncols (fun i j => get_unchecked m (i + row) (j + col)) in
  make_matrix nrows ncols data.

(** matrix.cc 37-45 *)
Definition transposed (m : matrix E) : outcome (matrix E) :=
  create_matrix (m_cols m) (m_rows m) (fun r c => at_ m c r).

(** matrix_expression.cc 53-63 *)
Definition reshape (m : matrix E) (nrows ncols : Z) : outcome (matrix E) :=
  if (nrows <? 0) || (ncols <? 0) then Throws
  else if negb (Z.of_nat (length (m_data m)) =? (nrows * ncols) mod 2 ^ 64)
       then let* _ := mach_mul nrows ncols in Throws
  else make_matrix nrows ncols (m_data m).

(** matrix_functions.cc 49-60 *)
Definition vectorize_matrix (m : matrix E) : outcome (matrix E) :=
  let* size := mach_mul (m_rows m) (m_cols m) in
  let* data := each (fun ji => at_ m (snd ji) (fst ji)) (list_prod (upto (m_cols m)) (upto (m_rows m))) in
  make_matrix size 1 data.

Variable ops : mat_ops E.

(** matrix_functions.cc 30-37 *)
Definition make_zeros (rows cols : Z) : outcome (matrix E) :=
  if (rows <=? 0) || (cols <=? 0) then Throws
  else let* n := mach_mul rows cols in make_matrix rows cols (repeat (op_zero ops) (Z.to_nat n)).

(** matrix_functions.cc 39-47 *)
Definition make_identity (rows : Z) (cols_opt : option Z) : outcome (matrix E) :=
  let cols := match cols_opt with Some c => c | None => rows end in
  if (rows <=? 0) || (cols <=? 0) then Throws
  else create_matrix rows cols (fun i j => Ok (if i =? j then op_one ops else op_zero ops)).

(** Assignment through a pointer. *)
Fixpoint write (l : list E) (k : nat) (e : E) : outcome (list E) :=
  match l, k with
  | [], _ => UB
  | _ :: t, O => Ok (e :: t)
  | x :: t, S k => let* t' := write t k e in Ok (x :: t')
  end.
Definition write_at (l : list E) (k : Z) (e : E) : outcome (list E) := if k <? 0 then UB else write l (Z.to_nat k) e.

(** matrix_functions.cc 82-86: one matrix copied to the offsets. *)
Fixpoint copy_elements (m : matrix E) (num_cols row_offset col_offset : Z) (ijs : list (Z * Z)) (result : list E) : outcome (list E) :=
  match ijs with
  | [] => Ok result
  | (i, j) :: t =>
      let* e := get_unchecked m i j in
      let* r := write_at result ((i + row_offset) * num_cols + (j + col_offset)) e in
      copy_elements m num_cols row_offset col_offset t r
  end.
(** matrix_functions.cc 80-89 *)
Fixpoint stack_loop (values : list (matrix E)) (num_cols : Z) (inc_rows inc_cols : bool) (row_offset col_offset : Z)
  (result : list E) : outcome (list E) :=
  match values with
  | [] => Ok result
  | m :: t =>
      let* r := copy_elements m num_cols row_offset col_offset (list_prod (upto (m_rows m)) (upto (m_cols m))) result in
      stack_loop t num_cols inc_rows inc_cols
        (row_offset + m_rows m * (if inc_rows then 1 else 0)) (col_offset + m_cols m * (if inc_cols then 1 else 0)) r
  end.
(** matrix_functions.cc 62-91 *)
Definition stack (values : list (matrix E)) (num_rows num_cols : Z) : outcome (matrix E) :=
  match values with
  | [] => UB
  | m0 :: _ =>
      let result := repeat (op_zero ops) (Z.to_nat ((num_rows * num_cols) mod 2 ^ 64)) in
      let* r := stack_loop values num_cols (m_rows m0 <? num_rows) (m_cols m0 <? num_cols) 0 0 result in
      make_matrix num_rows num_cols r
  end.

(** matrix_functions.cc 100-109 *)
Fixpoint total_cols (values : list (matrix E)) (num_rows acc : Z) : outcome Z :=
  match values with
  | [] => Ok acc
  | m :: t => let* a := mach_add acc (m_cols m) in if negb (m_rows m =? num_rows) then Throws else total_cols t num_rows a
  end.
(** matrix_functions.cc 93-112 *)
Definition hstack (values : list (matrix E)) : outcome (matrix E) :=
  match values with
  | [] => Throws
  | m0 :: _ => let* c := total_cols values (m_rows m0) 0 in stack values (m_rows m0) c
  end.
(** matrix_functions.cc 121-130 *)
Fixpoint total_rows (values : list (matrix E)) (num_cols acc : Z) : outcome Z :=
  match values with
  | [] => Ok acc
  | m :: t => let* a := mach_add acc (m_rows m) in if negb (m_cols m =? num_cols) then Throws else total_rows t num_cols a
  end.
(** matrix_functions.cc 114-132 *)
Definition vstack (values : list (matrix E)) : outcome (matrix E) :=
  match values with
  | [] => Throws
  | m0 :: _ => let* r := total_rows values (m_cols m0) 0 in stack values r (m_cols m0)
  end.
(** matrix_functions.cc 138-143 *)
Fixpoint total_both (values : list (matrix E)) (r c : Z) : outcome (Z * Z) :=
  match values with
  | [] => Ok (r, c)
  | m :: t => let* r' := mach_add r (m_rows m) in let* c' := mach_add c (m_cols m) in total_both t r' c'
  end.
(** matrix_functions.cc 134-145 *)
Definition diagonal_stack (values : list (matrix E)) : outcome (matrix E) :=
  match values with
  | [] => Throws
  | _ => let* rc := total_both values 0 0 in stack values (fst rc) (snd rc)
  end.
(** matrix_functions.cc 147-160 *)
Definition diagonal (values : list E) : outcome (matrix E) :=
  match values with
  | [] => Throws
  | _ =>
      let dims := Z.of_nat (length values) in
      create_matrix dims dims (fun i j =>
        if i =? j then match nth_error values (Z.to_nat i) with Some e => Ok e | None => UB end else Ok (op_zero ops))
  end.

(** matrix.cc 60-74: one element of a product; products that are zero are left out. *)
Fixpoint row_times_col (a b : matrix E) (i j : Z) (ks : list Z) : outcome (list E) :=
  match ks with
  | [] => Ok []
  | k :: t =>
      let* x := at_ a i k in
      let* y := at_ b k j in
      let* p := op_mul ops x y in
      let* r := row_times_col a b i j t in
      Ok (if op_is_zero ops p then r else p :: r)
  end.
(** matrix.cc 47-77 *)
Definition mat_mul (a b : matrix E) : outcome (matrix E) :=
  if negb (m_cols a =? m_rows b) then Throws
  else create_matrix (m_rows a) (m_cols b) (fun i j =>
    let* args := row_times_col a b i j (upto (m_cols a)) in
    match args with [] => Ok (op_zero ops) | _ => op_sum ops args end).

(** matrix.cc 79-90 and 92-103 *)
Definition mat_zip (f : E -> E -> outcome E) (a b : matrix E) : outcome (matrix E) :=
  if negb (m_rows a =? m_rows b) || negb (m_cols a =? m_cols b) then Throws
  else create_matrix (m_rows a) (m_cols a) (fun i j => let* x := at_ a i j in let* y := at_ b i j in f x y).
Definition mat_add (a b : matrix E) : outcome (matrix E) := mat_zip (op_add ops) a b.
Definition mat_sub (a b : matrix E) : outcome (matrix E) := mat_zip (op_sub ops) a b.

(** matrix_expression.cc 160-165 *)
Definition mat_scale (a : matrix E) (b : E) : outcome (matrix E) :=
  let* data := each (fun x => op_mul ops x b) (m_data a) in make_matrix (m_rows a) (m_cols a) data.

End Matrix.
