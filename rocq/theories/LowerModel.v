(** Lowering of scalar expressions to the operations of one block.
    /repo/components/core/wf/code_generation/ir_form_visitor.{h,cc}.

    Representation and simplifications.
    - Variables and doubles are known to the operations by numbers ([ids], arbitrary); the number of a
      function argument includes the type of the element, which is part of the identity of the variable
      (expressions/variable.h 123-128).
    - Matrices, custom types and external functions are left out: an output is a scalar.
    - Two operands passed to push_operation after a cast are cast from left to right (C++ leaves the order open,
      it only decides which cast gets the smaller name).
    - The unordered maps are lists; [emplace] keeps the entry that is already there. *)
From Coq Require Import String List Arith ZArith Bool.
From Verif Require Import Outcome RationalModel IntFloatModel ExprModel BuildModel FuncModel MapModel IrModel.
Import ListNotations.
Open Scope outcome_scope.
Open Scope nat_scope.

Record ids := mk_ids { id_var : var -> nat; id_arg : string -> nat; id_elem : Z -> nat; id_float : f64 -> Z }.

Definition numeric_rank (t : numeric) : nat := match t with NBool => 0 | NInt => 1 | NFloat => 2 end.
(** std::max on numeric_primitive_type. *)
Definition numeric_max (a b : numeric) : numeric := if numeric_rank a <? numeric_rank b then b else a.
Definition of_prim (p : prim) : numeric :=
  match p with prim_boolean => NBool | prim_integral => NInt | prim_floating => NFloat end.

(** std_math_function_from_built_in, ir_form_visitor.cc 130-170. *)
Definition std_of_built_in (f : fn) : std_fn :=
  match f with
  | Fcos => F_cos | Fsin => F_sin | Ftan => F_tan | Facos => F_acos | Fasin => F_asin | Fatan => F_atan
  | Fcosh => F_cosh | Fsinh => F_sinh | Ftanh => F_tanh | Facosh => F_acosh | Fasinh => F_asinh | Fatanh => F_atanh
  | Flog => F_log | Fexp => F_exp | Fabs => F_abs | Fsign => F_signum | Ffloor => F_floor | Fatan2 => F_atan2
  end.
Definition of_relop (r : relop) : rel_op :=
  match r with ExprModel.RLt => IrModel.RLt | ExprModel.RLe => IrModel.RLe | ExprModel.REq => IrModel.REq end.
Definition of_symc (c : symc) : sym_const := match c with Euler => SEuler | Pi => SPi end.

(** The visitor's members, ir_form_visitor.h 113-150, with the operations of the output block. *)
Record lstate := mk_ls {
  l_graph : graph;
  l_ops : list name;
  l_cache : list (expr * name);
  l_casts : list ((name * numeric) * name)
}.

Section Lower.
Variable I : impl.
Variable n : nat.
Variable K : ids.

Definition lowering := lstate -> outcome (name * lstate).

(** push_operation, ir_form_visitor.cc 444-453, with create_operation, control_flow_graph.cc 135-163. *)
Definition push (o : op) (t : numeric) (l : list name) : lowering := fun st =>
  let* gv := push_value (l_graph st) 0 o (TScalar t) l in
  Ok (snd gv, mk_ls (fst gv) (l_ops st ++ [snd gv]) (l_cache st) (l_casts st)).

Definition cast_eqb (a b : name * numeric) : bool :=
  (fst a =? fst b) && (if numeric_dec (snd a) (snd b) then true else false).
Fixpoint find_cast (k : name * numeric) (l : list ((name * numeric) * name)) : option name :=
  match l with
  | [] => None
  | (k', v) :: t => if cast_eqb k' k then Some v else find_cast k t
  end.

(** maybe_cast, ir_form_visitor.cc 455-468. *)
Definition maybe_cast (v : name) (t : numeric) : lowering := fun st =>
  let* u := numeric_type (l_graph st) v in
  if numeric_dec u t then Ok (v, st)
  else
    match find_cast (v, t) (l_casts st) with
    | Some c => Ok (c, st)
    | None =>
        let* r := push (OCast t) t [v] st in
        let (c, st1) := r in
        Ok (c, mk_ls (l_graph st1) (l_ops st1) (l_cache st1) (((v, t), c) :: l_casts st1))
    end.

Fixpoint lmap {A} (f : A -> lowering) (l : list A) (st : lstate) : outcome (list name * lstate) :=
  match l with
  | [] => Ok ([], st)
  | a :: t =>
      let* r := f a st in
      let* rs := lmap f t (snd r) in
      Ok (fst r :: fst rs, snd rs)
  end.

(** create_add_or_mul_with_operands, ir_form_visitor.cc 269-279. *)
Fixpoint promoted (g : graph) (l : list name) (t : numeric) : outcome numeric :=
  match l with
  | [] => Ok t
  | v :: l' => let* u := numeric_type g v in promoted g l' (numeric_max t u)
  end.
Definition create_add_or_mul (o : op) (l : list name) : lowering := fun st =>
  let* t := promoted (l_graph st) l NInt in
  let* r := lmap (fun v => maybe_cast v t) l st in
  push o t (fst r) (snd r).

(** The loop of exponentiate_by_squaring, ir_form_visitor.cc 287-298, for a positive exponent: [exponent & 1] and
    [exponent / 2] read its binary digits from the last to the first. *)
Fixpoint squaring (base : name) (p : positive) (result : option name) (st : lstate) : outcome (name * lstate) :=
  let combine st :=
    match result with
    | Some r =>
        let* t := numeric_type (l_graph st) base in
        push OMul t [r; base] st
    | None => Ok (base, st)
    end in
  let square st :=
    let* t := numeric_type (l_graph st) base in
    push OMul t [base; base] st in
  match p with
  | xH => combine st
  | xO p' => let* b := square st in squaring (fst b) p' result (snd b)
  | xI p' => let* r := combine st in let* b := square (snd r) in squaring (fst b) p' (Some (fst r)) (snd b)
  end.

Section Visit.
(** operator()(const T&), the cached visit of a sub-expression. *)
Variable rec : expr -> lowering.

(** exponentiate_by_squaring, ir_form_visitor.cc 282-299. *)
Definition exponentiate_by_squaring (base : name) (exponent : nat) : lowering := fun st =>
  match exponent with
  | O => rec (EInt 1) st
  | S k => squaring base (Pos.of_succ_nat k) None st
  end.

(** pow_extract_base_and_integer_exponent, ir_form_visitor.cc 301-328. *)
Definition pow_extract (b x : expr) (st : lstate) : outcome (option (name * nat) * lstate) :=
  match x with
  | EInt z =>
      if ((0 <? z) && (z <=? 16))%Z then
        let* v := rec b st in
        let* c := maybe_cast (fst v) NFloat (snd v) in
        Ok (Some (fst c, Z.to_nat z), snd c)
      else Ok (None, st)
  | ERat q =>
      if ((0 <? num q) && (den q =? 2) && (num q <=? 16))%Z then
        let* v := rec b st in
        let* c := maybe_cast (fst v) NFloat (snd v) in
        let* r := push (OCallStd F_sqrt) NFloat [fst c] (snd c) in
        Ok (Some (fst r, Z.to_nat (num q)), snd r)
      else Ok (None, st)
  | _ => Ok (None, st)
  end.

(** is_negative_integer, ir_form_visitor.cc 237-243. *)
Definition is_negative_integer (e : expr) : bool :=
  match e with EInt z => ((z <? 0) && negb (z =? -1))%Z | _ => false end.

(** ir_form_visitor.cc 245-250: the first negative integer is negated. *)
Fixpoint negate_first (l : list expr) : outcome (option (list expr)) :=
  match l with
  | [] => Ok None
  | a :: t =>
      if is_negative_integer a then let* a' := e_neg I n a in Ok (Some (a' :: t))
      else let* r := negate_first t in Ok (match r with Some t' => Some (a :: t') | None => None end)
  end.
Definition mul_terms (l : list expr) : outcome (list expr) :=
  let* r := negate_first l in
  Ok (match r with Some l' => l' ++ [EInt (-1)] | None => l end).

(** ir_form_visitor.cc 252-266. *)
Fixpoint mul_operands (l : list expr) (st : lstate) : outcome (list name * lstate) :=
  match l with
  | [] => Ok ([], st)
  | child :: t =>
      let* r :=
        match child with
        | EPow b x =>
            let* p := pow_extract b x st in
            match fst p with
            | Some (base, exponent) => Ok (repeat base exponent, snd p)
            | None => let* v := rec child (snd p) in Ok ([fst v], snd v)
            end
        | _ => let* v := rec child st in Ok ([fst v], snd v)
        end in
      let* rs := mul_operands t (snd r) in
      Ok (fst r ++ fst rs, snd rs)
  end.

(** operator()(const power&), ir_form_visitor.cc 335-370. *)
Definition lower_power (b x : expr) : lowering := fun st =>
  let* cm := as_coeff_and_mul I x in
  if is_negative_number (fst cm) then
    let* nx := e_neg I n x in
    let* reciprocal := e_pow I n b nx in
    let* r := rec reciprocal st in
    let* one := rec (EInt 1) (snd r) in
    let* c1 := maybe_cast (fst one) NFloat (snd one) in
    let* c2 := maybe_cast (fst r) NFloat (snd c1) in
    push ODiv NFloat [fst c1; fst c2] (snd c2)
  else
    let* p := pow_extract b x st in
    match fst p with
    | Some (base, exponent) => exponentiate_by_squaring base exponent (snd p)
    | None =>
        let* v := rec b (snd p) in
        let* base := maybe_cast (fst v) NFloat (snd v) in
        let* w := rec x (snd base) in
        let* t := numeric_type (l_graph (snd w)) (fst w) in
        if numeric_dec t NInt then push (OCallStd F_powi) NFloat [fst base; fst w] (snd w)
        else
          let* c := maybe_cast (fst w) NFloat (snd w) in
          push (OCallStd F_powf) NFloat [fst base; fst c] (snd c)
    end.

(** std_function_output_type, ir_form_visitor.cc 177-197. *)
Definition std_function_type (g : graph) (f : std_fn) (l : list name) : outcome numeric :=
  match f with
  | F_abs => match l with [v] => numeric_type g v | _ => Throws end
  | F_floor | F_signum => Ok NInt
  | _ => Ok NFloat
  end.

(** The load of a constant or variable: ir_form_visitor.cc 27-29, 122-128, 214-216, 372-374, 398-400, 417-419. *)
Definition load_var (v : var) : option (load_src * numeric) :=
  match v with
  | VNamed _ _ => Some (LVar (id_var K v), NFloat)
  | VArg s i p => Some (LArg (3 * id_arg K s + numeric_rank (of_prim p)) (id_elem K i), of_prim p)
  | VUnique _ _ => None
  end.

(** The alternatives of boolean_expr, boolean_expression.h 12-20. *)
Definition is_boolean (e : expr) : bool := match e with EBool _ | ERel _ _ _ => true | _ => false end.

(** The visit of every type of expression, ir_form_visitor.cc 20-419.  Sums and products have at least two operands:
    their constructors assert it (addition.h 25-34, multiplication.h 31-44).  The conditions of conditionals and
    brackets are boolean expressions by their C++ type. *)
Definition visit (e : expr) : lowering := fun st =>
  match e with
  | EFlt f => push (OLoad (LFloat (id_float K f))) NFloat [] st
  | EInt z => push (OLoad (LInt z)) NInt [] st
  | ERat q => push (OLoad (LRat (num q) (den q))) NFloat [] st
  | ESym c => push (OLoad (LSym (of_symc c))) NFloat [] st
  | EBool b => push (OLoad (LBool b)) NBool [] st
  | EVar v =>
      match load_var v with
      | Some (src, t) => push (OLoad src) t [] st
      | None => Throws
      end
  | EAdd l =>
      if length l <? 2 then Throws
      else let* r := lmap rec l st in create_add_or_mul OAdd (fst r) (snd r)
  | EMul l =>
      if length l <? 2 then Throws
      else
        let* l' := mul_terms l in
        let* r := mul_operands l' st in
        create_add_or_mul OMul (fst r) (snd r)
  | EPow b x => lower_power b x st
  | EFun f l =>
      let* r := lmap rec l st in
      let* t := std_function_type (l_graph (snd r)) (std_of_built_in f) (fst r) in
      push (OCallStd (std_of_built_in f)) t (fst r) (snd r)
  | EUneval a | EStop a => rec a st
  | ECond c a b =>
      if negb (is_boolean c) then Throws else
      let* vc := rec c st in
      let* va := rec a (snd vc) in
      let* vb := rec b (snd va) in
      let* ta := numeric_type (l_graph (snd vb)) (fst va) in
      let* tb := numeric_type (l_graph (snd vb)) (fst vb) in
      let t := numeric_max ta tb in
      let* ca := maybe_cast (fst va) t (snd vb) in
      let* cb := maybe_cast (fst vb) t (snd ca) in
      push OCond t [fst vc; fst ca; fst cb] (snd cb)
  | EIver c =>
      if negb (is_boolean c) then Throws else
      let* vc := rec c st in
      push (OCast NInt) NInt [fst vc] (snd vc)
  | ERel o a b =>
      let* va := rec a st in
      let* vb := rec b (snd va) in
      let* ta := numeric_type (l_graph (snd vb)) (fst va) in
      let* tb := numeric_type (l_graph (snd vb)) (fst vb) in
      let t := numeric_max ta tb in
      let* ca := maybe_cast (fst va) t (snd vb) in
      let* cb := maybe_cast (fst vb) t (snd ca) in
      push (OCompare (of_relop o)) NBool [fst ca; fst cb] (snd cb)
  | EInf | EImag | EUndef | ESymFn _ _ | EDeriv _ _ _ | ESubst _ _ _ => Throws
  end.
End Visit.

Fixpoint find_expr (e : expr) (l : list (expr * name)) : option name :=
  match l with
  | [] => None
  | (k, v) :: t => if key_eq I k e then Some v else find_expr e t
  end.

(** operator()(const T&), ir_form_visitor.cc 421-430; [k] bounds the depth. *)
Fixpoint lower (k : nat) (e : expr) (st : lstate) : outcome (name * lstate) :=
  match k with
  | O => NoFuel
  | S k' =>
      match find_expr e (l_cache st) with
      | Some v => Ok (v, st)
      | None =>
          let* r := visit (lower k') e st in
          let (v, st1) := r in
          match find_expr e (l_cache st1) with
          | Some w => Ok (w, st1)
          | None => Ok (v, mk_ls (l_graph st1) (l_ops st1) ((e, v) :: l_cache st1) (l_casts st1))
          end
      end
  end.

(** expression_sorter, ir_form_visitor.cc 470-500, without its cache. *)
Definition order_lt (a b : expr) : outcome bool :=
  let* c := order a b in Ok (match c with Lt => true | _ => false end).
Fixpoint order_insert (x : expr) (l : list expr) : outcome (list expr) :=
  match l with
  | [] => Ok [x]
  | y :: t =>
      let* b := order_lt y x in
      if b then let* t' := order_insert x t in Ok (y :: t') else Ok (x :: l)
  end.
Fixpoint order_sort (l : list expr) : outcome (list expr) :=
  match l with
  | [] => Ok []
  | x :: t => let* t' := order_sort t in order_insert x t'
  end.
Fixpoint sorter (e : expr) (u : unit) : outcome (expr * unit) :=
  match e with
  | EAdd l => let* d := tmap sorter l u in let* l' := order_sort (fst d) in Ok (EAdd l', u)
  | EMul l => let* d := tmap sorter l u in let* l' := order_sort (fst d) in Ok (EMul l', u)
  | _ => map_children I n sorter e u
  end.
Definition sort_expression (e : expr) : outcome expr := let* r := sorter e tt in Ok (fst r).

(** add_output_value, ir_form_visitor.cc 432-446, for a scalar. *)
Record output := mk_out { o_usage : nat; o_key : string; o_expr : expr; o_type : numeric }.
Definition add_output (k : nat) (st : lstate) (o : output) : outcome lstate :=
  let* e := sort_expression (o_expr o) in
  let* v := lower k e st in
  let* c := maybe_cast (fst v) (o_type o) (snd v) in
  let* gv := push_value (l_graph (snd c)) 0 (OSave (o_usage o) (o_key o)) TVoid [fst c] in
  Ok (mk_ls (fst gv) (l_ops (snd c) ++ [snd gv]) (l_cache (snd c)) (l_casts (snd c))).

Definition empty_state : lstate := mk_ls empty_graph [] [] [].

(** The constructor of control_flow_graph from a function description (control_flow_graph.cc 165-185): every output
    is added to the one block. *)
Definition lower_all (k : nat) (outs : list output) : outcome lstate := mfold (add_output k) outs empty_state.
End Lower.
