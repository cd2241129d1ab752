(** Model of custom types: components/core/wf/code_generation/types.h, types.cc, the constructor building of
    ast_conversion.cc and the compound expressions of expressions/custom_type_expressions.cc.
    Sizes and indices (std::size_t, index_t) are natural numbers; wrap-around of rows*cols is not modelled. *)
From Coq Require Import List Arith Bool String.
From Verif Require Import Outcome.
Import ListNotations.
Open Scope outcome_scope.

(** enumerations.h 67-71. *)
Inductive numeric : Type := boolean | integral | floating_point.

(** types.h: scalar_type 20-33, matrix_type 53-80, custom_type (name and fields; the hash and the
    underlying-type tag are not modelled), struct_field 238-263. *)
Inductive ty : Type :=
| TScalar (n : numeric)
| TMatrix (rows cols : nat)
| TCustom (name : string) (fields : list (string * ty)).

(** types.cc 70-86: count_custom_type_size / total_size (for scalars and matrices: their visitor cases). *)
Fixpoint total_size (t : ty) : nat :=
  match t with
  | TScalar _ => 1
  | TMatrix r c => r * c
  | TCustom _ fields =>
      (fix go (fs : list (string * ty)) : nat :=
         match fs with [] => 0 | (_, ft) :: fs' => total_size ft + go fs' end) fields
  end.

(** types.h 60-64: matrix_type::compute_indices. *)
Definition compute_indices (rows cols element : nat) : outcome (nat * nat) :=
  if element <? rows * cols then Ok (element / cols, element mod cols) else Throws.

(** types.h 326-369: field_access and matrix_access. *)
Inductive access : Type :=
| AField (owner : ty) (field : string)
| AMatrix (rows cols element : nat).

(** types.cc 112-153: build_access_sequence; returns (found, index, output). *)
Fixpoint build_access_sequence (t : ty) (index : nat) (output : list access) : bool * nat * list access :=
  match t with
  | TScalar _ => if index =? 0 then (true, index, output) else (false, index - 1, output)
  | TMatrix r c =>
      if index <? r * c then (true, index, output ++ [AMatrix r c index])
      else (false, index - r * c, output)
  | TCustom name fields =>
      (fix go (fs : list (string * ty)) (index : nat) (output : list access) : bool * nat * list access :=
         match fs with
         | [] => (false, index, output)
         | (fname, ft) :: fs' =>
             let '(found, index, output) := build_access_sequence ft index output in
             if found then (true, index, output ++ [AField (TCustom name fields) fname])
             else go fs' index output
         end) fields index output
  end.

(** types.cc 157-166: determine_access_sequence. *)
Definition determine_access_sequence (t : ty) (index : nat) : outcome (list access) :=
  let '(found, _, sequence) := build_access_sequence t index [] in
  if found then Ok (rev sequence) else Throws.

(** types.cc 60-68: field_by_name, linear search. *)
Fixpoint field_by_name (fs : list (string * ty)) (name : string) : option ty :=
  match fs with
  | [] => None
  | (n, t) :: fs' => if String.eqb n name then Some t else field_by_name fs' name
  end.

(** types.cc 168-188: determine_member_type. *)
Definition determine_member_type (t : ty) (index : nat) : outcome numeric :=
  let* s := determine_access_sequence t index in
  match rev s with
  | [] => Throws
  | AMatrix _ _ _ :: _ => Ok floating_point
  | AField (TCustom _ fs) fname :: _ =>
      match field_by_name fs fname with
      | Some (TScalar n) => Ok n
      | Some _ => Throws
      | None => UB
      end
  | AField _ _ :: _ => Throws
  end.

(** types.h 288-323: iterate_custom_type_fields; the calls (index, leaf type) made to the callback, and the final
    index. *)
Fixpoint iterate_fields (t : ty) (index : nat) : list (nat * ty) * nat :=
  match t with
  | TScalar n => ([(index, TScalar n)], index + 1)
  | TMatrix r c => ([(index, TMatrix r c)], index + r * c)
  | TCustom _ fields =>
      (fix go (fs : list (string * ty)) (index : nat) : list (nat * ty) * nat :=
         match fs with
         | [] => ([], index)
         | (_, ft) :: fs' =>
             let (l1, i1) := iterate_fields ft index in
             let (l2, i2) := go fs' i1 in
             (l1 ++ l2, i2)
         end) fields index
  end.

(** ir_form_visitor.cc 69-89: the arguments visited when lowering a custom_type_construction (before casting). *)
Definition construction_operands (t : ty) : list nat :=
  flat_map (fun p => match snd p with
                     | TMatrix r c => map (fun i => fst p + i) (seq 0 (r * c))
                     | _ => [fst p]
                     end) (fst (iterate_fields t 0)).
(** ir_form_visitor.cc 77-85: the numeric type each operand is cast to. *)
Definition construction_casts (t : ty) : list numeric :=
  flat_map (fun p => match snd p with
                     | TScalar n => [n]
                     | TMatrix r c => map (fun _ => floating_point) (seq 0 (r * c))
                     | _ => []
                     end) (fst (iterate_fields t 0)).

(** The syntax built by type_constructor: ast_conversion.cc 41-86. *)
Inductive obj (X : Type) : Type :=
| OScalar (x : X)
| OMatrix (rows cols : nat) (elements : list X)
| OCustom (t : ty) (fields : list (string * obj X)).
Arguments OScalar {X}. Arguments OMatrix {X}. Arguments OCustom {X}.

Fixpoint type_constructor {X : Type} (contents : list X) (t : ty) (index : nat) : outcome (obj X * nat) :=
  match t with
  | TScalar _ =>
      match nth_error contents index with
      | Some x => Ok (OScalar x, index + 1)
      | None => Throws
      end
  | TMatrix r c =>
      if index + r * c <=? List.length contents
      then Ok (OMatrix r c (firstn (r * c) (skipn index contents)), index + r * c)
      else Throws
  | TCustom name fields =>
      (fix go (fs : list (string * ty)) (index : nat) (out : list (string * obj X)) : outcome (obj X * nat) :=
         match fs with
         | [] => Ok (OCustom (TCustom name fields) out, index)
         | (fname, ft) :: fs' =>
             let* r := type_constructor contents ft index in
             let (v, i) := r in
             go fs' i (out ++ [(fname, v)])
         end) fields index []
  end.

(** types.cc 29-41: field names must be unique (checked at every custom type). *)
Fixpoint names_unique (t : ty) : Prop :=
  match t with
  | TCustom _ fields =>
      NoDup (map fst fields) /\
      (fix go (fs : list (string * ty)) : Prop :=
         match fs with [] => True | (_, ft) :: fs' => names_unique ft /\ go fs' end) fields
  | _ => True
  end.

(** Compound expressions: custom_type_argument, external invocations returning a custom type (both opaque here: [id]
    distinguishes them) and custom_type_construction; scalars: elements of compounds or anything else. *)
Inductive compound : Type :=
| CArg (t : ty) (id : nat)
| CConstruct (t : ty) (args : list sexpr)
with sexpr : Type :=
| SElem (provenance : compound) (index : nat)
| SOther (id : nat).

(** custom_type_expressions.cc 18-30. *)
Definition get_custom_type (c : compound) : ty :=
  match c with CArg t _ => t | CConstruct t _ => t end.

(** compound_expression_element.cc 11-19; [at] on a vector throws out of range. *)
Definition create_element (provenance : compound) (index : nat) : outcome sexpr :=
  match provenance with
  | CConstruct _ args => match nth_error args index with Some a => Ok a | None => Throws end
  | _ => Ok (SElem provenance index)
  end.

(** custom_type_expressions.cc 35-68: maybe_get_existing_compound_expr, with decidable identity tests
    passed in (is_identical_struct for types and compounds). *)
Definition maybe_get_existing (ty_eqb : ty -> ty -> bool) (c_eqb : compound -> compound -> bool)
    (t : ty) (args : list sexpr) : option compound :=
  match args with
  | SElem p O :: rest =>
      if ty_eqb (get_custom_type p) t then
        (fix go (l : list sexpr) (i : nat) : option compound :=
           match l with
           | [] => Some p
           | SElem q j :: l' => if (j =? i) && c_eqb q p then go l' (S i) else None
           | _ :: _ => None
           end) rest 1
      else None
  | _ => None
  end.

(** custom_type_expressions.cc 70-76 with the arity assertion 11-16. *)
Definition create_construction (ty_eqb : ty -> ty -> bool) (c_eqb : compound -> compound -> bool)
    (t : ty) (args : list sexpr) : outcome compound :=
  match maybe_get_existing ty_eqb c_eqb t args with
  | Some c => Ok c
  | None => if total_size t =? List.length args then Ok (CConstruct t args) else Throws
  end.
