(** Model of components/runtime/wrenfold/span.h: spans as (pointer, dimensions, strides).
    A pointer is an optional element offset into one buffer (None = nullptr); dimensions and strides are size_t
    values. Compile-time and run-time axes (constant<N>, dynamic) carry the same values and are not distinguished. *)
From Coq Require Import ZArith List.
From Verif Require Import Outcome.
Import ListNotations.
Open Scope Z_scope.
Open Scope outcome_scope.

(** span.h 66-96: class span and its constructor; make_span is span.h 294-298. *)
Record span : Type := make_span { sp_data : option Z; sp_dims : list Z; sp_strides : list Z }.

(** Conversion of a 64-bit bit pattern to std::ptrdiff_t (two's complement). *)
Definition wrap64 (z : Z) : Z := (z + 2 ^ 63) mod 2 ^ 64 - 2 ^ 63.

(** span.h 230-246: compute_index_internal.  Every axis but the last multiplies two ptrdiff_t; the last axis
    multiplies size_t by ptrdiff_t, i.e. modulo 2^64 (line 245). *)
Fixpoint compute_index_internal (strides idx : list Z) : outcome Z :=
  match strides, idx with
  | [s], [i] => Ok (wrap64 (s * i))
  | s :: strides', i :: idx' =>
      let* m := mach_mul (wrap64 s) i in
      let* r := compute_index_internal strides' idx' in
      mach_add m r
  | _, _ => Throws (* static_assert: wrong number of indices, span.h 180-181 *)
  end.

(** span.h 176-184. *)
Definition compute_index (sp : span) (idx : list Z) : outcome Z := compute_index_internal (sp_strides sp) idx.

(** span.h 157-159: operator(); the address of the element.  Indexing nullptr is undefined. *)
Definition span_at (sp : span) (idx : list Z) : outcome Z :=
  let* k := compute_index sp idx in
  match sp_data sp with Some p => mach_add p k | None => UB end.

(** span.h 191: operator bool. *)
Definition span_to_bool (sp : span) : bool := match sp_data sp with Some _ => true | None => false end.

(** span.h 221-227 (with 248-263): block. *)
Definition span_block (sp : span) (offsets dims : list Z) : outcome span :=
  let* k := compute_index_internal (sp_strides sp) offsets in
  match sp_data sp with
  | Some p => let* p' := mach_add p k in Ok (make_span (Some p') dims (sp_strides sp))
  | None => if k =? 0 then Ok (make_span None dims (sp_strides sp)) else UB
  end.

(** span.h 309-314: make_always_null_span. *)
Definition make_always_null_span (dims : list Z) : span :=
  make_span None dims (map (fun _ => 0) dims).

(** span.h 332-351: make_array_span. *)
Definition make_array_span (data size : Z) : span := make_span (Some data) [size] [1].

(** span.h 530-549 and 589-598: strides of an Eigen matrix with the given storage order. *)
Definition eigen_span (row_major : bool) (data rows cols inner outer : Z) : span :=
  make_span (Some data) [rows; cols]
    [if row_major then outer else inner; if row_major then inner else outer].

(** span.h 604-613: a quaternion is a 4x1 column vector with strides <1, 4>. *)
Definition quaternion_span (data : Z) : span := make_span (Some data) [4; 1] [1; 4].

(** span.h 27-31 (documentation of convert_to_span): dense row-major matrix, strides <Cols, 1>. *)
Definition row_major_matrix_span (data rows cols : Z) : span := make_span (Some data) [rows; cols] [cols; 1].

(** span.h 272-278 (documentation of make_span): "4x6, in column-major order". *)
Definition doc_column_major_4x6 (data : Z) : span := make_span (Some data) [4; 6] [1; 6].
