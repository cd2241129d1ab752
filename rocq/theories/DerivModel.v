(** Model of differentiation: components/core/wf/derivative.cc and is_function_of (utility_visitors.cc).

    The visitor carries a cache from expressions to derivatives and draws unique variables from a process-wide
    counter; both are threaded through the traversal ([dst]).  Where C++ leaves the evaluation order of
    operands open (only the counter could tell) the model goes from left to right. *)
From Coq Require Import String List ZArith Bool.
From Verif Require Import Outcome CheckedIntModel RationalModel ExprModel BuildModel FuncModel.
Import ListNotations.
Open Scope Z_scope.
Open Scope outcome_scope.

(** The children of an expression (the children() members of expressions/*.h). *)
Definition children (e : expr) : list expr :=
  match e with
  | EMul l | EAdd l | EFun _ l | ESymFn _ l => l
  | EPow a b | EDeriv a b _ | ERel _ a b => [a; b]
  | EUneval a | EIver a | EStop a => [a]
  | ECond a b c | ESubst a b c => [a; b; c]
  | _ => []
  end.

(** utility_visitors.cc 95-115: is_function_of. A node of the target's type is compared but not searched. *)
Fixpoint is_function_of (target e : expr) {struct e} : bool :=
  if type_rank e =? type_rank target then ident target e
  else
    match e with
    | EMul l | EAdd l | EFun _ l | ESymFn _ l => existsb (is_function_of target) l
    | EPow a b | EDeriv a b _ | ERel _ a b => is_function_of target a || is_function_of target b
    | EUneval a | EIver a | EStop a => is_function_of target a
    | ECond a b c | ESubst a b c => is_function_of target a || is_function_of target b || is_function_of target c
    | _ => false
    end.

(** The cache of the visitor (derivative.h 55-58) and the counter of unique variables. *)
Record dst := mk_dst { d_cache : list (expr * expr); d_next : Z }.
Definition dres : Type := outcome (expr * dst).

(** transform_map: the operation applied to every element in order. *)
Fixpoint smap (f : expr -> dst -> dres) (l : list expr) (s : dst) : outcome (list expr * dst) :=
  match l with
  | [] => Ok ([], s)
  | a :: t =>
      let* v := f a s in
      let* w := smap f t (snd v) in
      Ok (fst v :: fst w, snd w)
  end.

(** variable.cc: make_unique_variable_symbol. *)
Definition fresh (set : number_set) (s : dst) : expr * dst :=
  (EVar (VUnique (d_next s) set), mk_dst (d_cache s) (d_next s + 1)).

Section Deriv.
Variable I : impl.
Variable n : nat.

(** derivative.cc 30-44: the arguments the constructor accepts. *)
Definition diff_argument_ok (x : expr) : bool :=
  match x with EVar _ | ESymFn _ _ | EDeriv (ESymFn _ _) _ _ => true | _ => false end.

(** derivative.cc 134-232: the derivative of a built-in call with arguments [args], whose derivatives are [d]. *)
Definition diff_fn (x : expr) (abstract : bool) (f : fn) (args d : list expr) : outcome expr :=
  if forallb is_zero d then Ok (EInt 0)
  else
    match args, d with
    | a :: args', da :: d' =>
        let half_power := e_div I n (EInt (-1)) (EInt 2) in
        match f with
        | Fcos => let* v := trig I n n Fsin a in let* m := e_neg I n v in e_mul2 I n m da
        | Fsin => let* v := trig I n n Fcos a in e_mul2 I n v da
        | Ftan => let* v := trig I n n Fcos a in let* p := e_pow I n v (EInt (-2)) in e_mul2 I n p da
        | Facos =>
            let* h := half_power in
            let* q := e_pow I n a (EInt 2) in let* t := e_sub I n (EInt 1) q in
            let* p := e_pow I n t h in let* m := e_neg I n p in e_mul2 I n m da
        | Fasin =>
            let* h := half_power in
            let* q := e_pow I n a (EInt 2) in let* t := e_sub I n (EInt 1) q in
            let* p := e_pow I n t h in e_mul2 I n p da
        | Fatan => let* q := e_pow I n a (EInt 2) in let* t := e_add I n [q; EInt 1] in e_div I n da t
        | Fcosh => let* v := trig I n n Fsinh a in e_mul2 I n da v
        | Fsinh => let* v := trig I n n Fcosh a in e_mul2 I n da v
        | Ftanh => let* q := e_pow I n (EFun f args) (EInt 2) in let* t := e_sub I n (EInt 1) q in e_mul2 I n t da
        | Facosh =>
            let* p := e_add I n [a; EInt 1] in let* m := e_sub I n a (EInt 1) in
            let* sp := sqrt_fn I n p in let* sm := sqrt_fn I n m in
            let* t := e_mul2 I n sp sm in let* v := e_pow I n t (EInt (-1)) in e_mul2 I n v da
        | Fasinh =>
            let* h := half_power in
            let* q := e_pow I n a (EInt 2) in let* t := e_add I n [q; EInt 1] in
            let* p := e_pow I n t h in e_mul2 I n p da
        | Fatanh =>
            let* q := e_pow I n a (EInt 2) in let* t := e_sub I n (EInt 1) q in
            let* p := e_pow I n t (EInt (-1)) in e_mul2 I n p da
        | Fexp => e_mul2 I n (EFun f args) da
        | Flog => let* p := e_pow I n a (EInt (-1)) in e_mul2 I n p da
        | Fabs => let* v := abs_fn I a in let* q := e_div I n a v in e_mul2 I n q da
        | Fsign => if abstract then let* v := signum_fn a in deriv_fn v x 1 else Ok (EInt 0)
        | Ffloor => if abstract then let* v := floor_fn a in deriv_fn v x 1 else Ok (EInt 0)
        | Fatan2 =>
            match args', d' with
            | b :: _, db :: _ =>
                let* yy := e_mul2 I n a a in let* xx := e_mul2 I n b b in let* ss := e_add I n [yy; xx] in
                let* p := e_mul2 I n a db in let* m := e_neg I n p in let* u := e_div I n m ss in
                let* q := e_mul2 I n b da in let* w := e_div I n q ss in
                e_add I n [u; w]
            | _, _ => UB
            end
        end
    | _, _ => UB
    end.

(** derivative.cc 271-282: the power rule. *)
Definition diff_pow (b p db dp : expr) : outcome expr :=
  if is_zero db && is_zero dp then Ok (EInt 0)
  else
    let* p1 := e_sub I n p (EInt 1) in
    let* bp := e_pow I n b p1 in
    let* u := e_mul2 I n p bp in
    let* u' := e_mul2 I n u db in
    let* w := e_pow I n b p in
    let* lg := log_fn I n b in
    let* z := e_mul2 I n w lg in
    let* z' := e_mul2 I n z dp in
    e_add I n [u'; z'].

(** derivative.cc 106-131: one summand per factor with a non-zero derivative; [pre] are the factors before. *)
Fixpoint diff_mul_terms (pre l d : list expr) : outcome (list expr) :=
  match l, d with
  | a :: l', da :: d' =>
      let* t := diff_mul_terms (pre ++ [a]) l' d' in
      if is_zero da then Ok t
      else let* m := e_mul I n (da :: pre ++ l') in Ok (m :: t)
  | _, _ => Ok []
  end.
Definition diff_mul (l d : list expr) : outcome expr :=
  let* ts := diff_mul_terms [] l d in
  match ts with
  | [] => Ok (EInt 0)
  | _ => e_add I n ts
  end.

(** derivative.cc 374-397: the summands of the total derivative of a symbolic function. *)
Fixpoint diff_symfn_terms (x : expr) (name : string) (pre l d : list expr) (s : dst) : outcome (list expr * dst) :=
  match l, d with
  | a :: l', da :: d' =>
      if is_zero da then
        let* t := diff_symfn_terms x name (pre ++ [a]) l' d' s in Ok (EInt 0 :: fst t, snd t)
      else
        let (u, s1) := fresh (determine_set x) s in
        let* g := deriv_fn (ESymFn name (pre ++ u :: l')) u 1 in
        let* h := subst_fn g u a in
        let* v := e_mul2 I n da h in
        let* t := diff_symfn_terms x name (pre ++ [a]) l' d' s1 in
        Ok (v :: fst t, snd t)
  | _, _ => Ok ([], s)
  end.

(** derivative.cc 343-398. *)
Definition diff_symfn (x : expr) (name : string) (l d : list expr) (s : dst) : dres :=
  let zeros := List.length (filter is_zero d) in
  if Nat.eqb zeros (List.length d) then Ok (EInt 0, s)
  else if Nat.eqb (zeros + 1) (List.length d) && Nat.eqb (List.length (filter is_one d)) 1 then
    let* v := deriv_fn (ESymFn name l) x 1 in Ok (v, s)
  else
    let* t := diff_symfn_terms x name [] l d s in
    let* v := e_add I n (fst t) in Ok (v, snd t).

(** derivative.cc 84-103: the derivative of an abstract derivative [e] of [f]. *)
Definition diff_deriv (x e f : expr) : outcome expr :=
  match x with
  | EDeriv _ _ _ => if ident e x then Ok (EInt 1) else if negb (is_function_of x f) then Ok (EInt 0) else deriv_fn e x 1
  | _ =>
      if negb (is_function_of x f) then Ok (EInt 0)
      else match x with
      | ESymFn _ _ => if ident f x then Ok (EInt 0) else deriv_fn e x 1
      | _ => deriv_fn e x 1
      end
  end.

(** derivative.cc 46-421: the visitor, with recursion depth [k]. [dv_new] is a visitor for another variable
    with an empty cache (diff with its default behaviour). *)
Section Visit.
Variable self : expr -> dst -> dres.
Variable self_new : expr -> expr -> dst -> dres.
Variable x : expr.
Variable abstract : bool.

(** derivative.cc 292-340: derivatives of abstract substitutions. *)
Definition diff_subst (e i t r : expr) (s : dst) : dres :=
  if is_function_of x t then let* v := deriv_fn e x 1 in Ok (v, s)
  else
    let* di := self i s in
    let* dr := self r (snd di) in
    let s := snd dr in
    if is_zero (fst dr) then let* v := subst_fn (fst di) t r in Ok (v, s)
    else
      let* w :=
        (match t, r with
         | EVar _, _ =>
             let* d := self_new t i (mk_dst [] (d_next s)) in
             let* v := subst_fn (fst d) t r in Ok (v, mk_dst (d_cache s) (d_next (snd d)))
         | _, EVar _ => let* v := deriv_fn e r 1 in Ok (v, s)
         | _, _ =>
             let (u, s1) := fresh (determine_set r) s in
             let* a := subst_fn i t u in
             let* b := deriv_fn a u 1 in
             let* v := subst_fn b u r in Ok (v, s1)
         end) in
      let* p := e_mul2 I n (fst dr) (fst w) in
      let* q := subst_fn (fst di) t r in
      let* v := e_add I n [p; q] in Ok (v, snd w).

Definition diff_visit (e : expr) (s : dst) : dres :=
  match e with
  | EAdd l => let* d := smap self l s in let* v := e_add I n (fst d) in Ok (v, snd d)
  | ECond c a b =>
      let* da := self a s in let* db := self b (snd da) in
      let* v := cond_fn c (fst da) (fst db) in Ok (v, snd db)
  | ESym _ | EInf | EImag | EInt _ | EFlt _ | ERat _ | EStop _ => Ok (EInt 0, s)
  | EDeriv f _ _ => let* v := diff_deriv x e f in Ok (v, s)
  | EMul l => let* d := smap self l s in let* v := diff_mul l (fst d) in Ok (v, snd d)
  | EFun f l => let* d := smap self l s in let* v := diff_fn x abstract f l (fst d) in Ok (v, snd d)
  | EIver _ => if abstract then let* v := deriv_fn e x 1 in Ok (v, s) else Ok (EInt 0, s)
  | EVar _ => Ok (EInt (if ident e x then 1 else 0), s)
  | EPow b p =>
      let* db := self b s in let* dp := self p (snd db) in
      let* v := diff_pow b p (fst db) (fst dp) in Ok (v, snd dp)
  | ESubst i t r => diff_subst e i t r s
  | ESymFn name l =>
      if ident e x then Ok (EInt 1, s)
      else let* d := smap self l s in diff_symfn x name l (fst d) (snd d)
  | EUndef => Ok (EUndef, s)
  | EUneval a => let* d := self a s in let* v := uneval_fn (fst d) in Ok (v, snd d)
  | EBool _ | ERel _ _ _ => Throws
  end.
End Visit.

Fixpoint dv (k : nat) (x : expr) (abstract : bool) (e : expr) (s : dst) : dres :=
  match k with
  | O => NoFuel
  | S k =>
      match lookup I e (d_cache s) with
      | Some d => Ok (d, s)
      | None =>
          let* r := diff_visit (dv k x abstract) (fun y => dv k y false) x abstract e s in
          Ok (fst r, mk_dst ((e, fst r) :: d_cache (snd r)) (d_next (snd r)))
      end
  end.

(** derivative.cc 426-437: diff; [c] is the counter of unique variables. The cache lasts for all repetitions. *)
Fixpoint diff_reps (k : nat) (x : expr) (abstract : bool) (reps : nat) (e : expr) (s : dst) : dres :=
  match reps with
  | O => Ok (e, s)
  | S m => let* r := dv k x abstract e s in diff_reps k x abstract m (fst r) (snd r)
  end.
Definition diff (k : nat) (e x : expr) (reps : Z) (abstract : bool) (c : Z) : outcome (expr * Z) :=
  if reps <? 0 then Throws
  else if negb (diff_argument_ok x) then Throws
  else let* r := diff_reps k x abstract (Z.to_nat reps) e (mk_dst [] c) in Ok (fst r, d_next (snd r)).

(** derivative.cc 439-468: jacobian; the columns are computed one after the other, and returned as rows. *)
Fixpoint jac_columns (k : nat) (fs xs : list expr) (abstract : bool) (c : Z) : outcome (list (list expr) * Z) :=
  match xs with
  | [] => Ok ([], c)
  | x :: t =>
      if negb (diff_argument_ok x) then Throws
      else
        let* col := smap (dv k x abstract) fs (mk_dst [] c) in
        let* r := jac_columns k fs t abstract (d_next (snd col)) in
        Ok (fst col :: fst r, snd r)
  end.
Definition jacobian (k : nat) (fs xs : list expr) (abstract : bool) (c : Z) : outcome (list (list expr) * Z) :=
  match fs, xs with
  | [], _ | _, [] => Throws
  | _, _ =>
      let* cols := jac_columns k fs xs abstract c in
      Ok (map (fun i => map (fun col => nth i col (EInt 0)) (fst cols)) (seq 0 (List.length fs)), snd cols)
  end.

End Deriv.
