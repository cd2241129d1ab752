(** C35: the C++ text of an expression is read as the expression it was printed from. *)
From Coq Require Import String Ascii List Arith ZArith Bool Lia DecimalString DecimalZ.
From Verif Require Import CppSpec CppParse Outcome ExprModel BuildProps IrModel LowerModel LowerProps AstModel AstSpec AstProofs AstTree.
Import IrModel AstModel.
Import ListNotations.
Open Scope string_scope.
Open Scope nat_scope.

(** ** A machine for the examples: whole numbers; a name is looked up in [env], and C++ makes 0 and 1 of truth values. *)
Inductive cell := VZ (z : Z) | VF (path : list string) | VBad.
Definition b2z (b : bool) : Z := if b then 1 else 0.
Definition num_cell (s : string) : cell :=
  match NilZero.int_of_string s with Some d => VZ (Z.of_int d) | None => VBad end.
Definition on2 (f : Z -> Z -> Z) (a b : cell) : cell := match a, b with VZ x, VZ y => VZ (f x y) | _, _ => VBad end.
Definition un_cell (o : string) (a : cell) : cell :=
  match a with
  | VZ z => if String.eqb o "-" then VZ (- z) else if String.eqb o "--" then VZ (z - 1) else VBad
  | _ => VBad
  end.
Definition bin_cell (o : string) : cell -> cell -> cell :=
  if String.eqb o "+" then on2 Z.add else if String.eqb o "-" then on2 Z.sub else if String.eqb o "*" then on2 Z.mul
  else if String.eqb o "/" then on2 Z.quot
  else if String.eqb o "<" then on2 (fun x y => b2z (x <? y)%Z) else if String.eqb o "<=" then on2 (fun x y => b2z (x <=? y)%Z)
  else if String.eqb o "==" then on2 (fun x y => b2z (x =? y)%Z) else fun _ _ => VBad.
Definition cond_cell (c a b : cell) : cell := match c with VZ z => if (z =? 0)%Z then b else a | _ => VBad end.
Definition call_cell (f : cell) (l : list cell) : cell :=
  match f, l with
  | VF ["std"; "abs"], [VZ z] => VZ (Z.abs z)
  | VF ["std"; "floor"], [VZ z] => VZ z
  | VF ["std"; "pow"], [VZ a; VZ b] => VZ (a ^ b)
  | VZ a, [VZ r; VZ c] => VZ (a + 10 * r + c)   (* the elements of a matrix *)
  | _, _ => VBad
  end.
Definition machine (env : string -> Z) : cpp :=
  Build_cpp cell (fun p => match p with [s] => VZ (env s) | _ => VF p end) num_cell (fun b => VZ (b2z b)) un_cell bin_cell
    cond_cell (fun _ a => a) call_cell (fun _ _ => VBad).
Definition signum_cell (l : list cell) : cell := match l with [VZ z] => VZ (Z.sgn z) | _ => VBad end.
Definition integers (env : string -> Z) (span : bool) (ftext : load_src -> string) : meaning cell :=
  Build_meaning cell (fun s => VZ (env s)) (fun s m => VZ (env (if m && span then "_" ++ s else s))%string)
    (fun v r c => call_cell v [VZ (Z.of_nat r); VZ (Z.of_nat c)]) (fun _ _ => VBad) VZ
    (fun l => match ftext l with
              | String c s => if Ascii.eqb c "-" then un_cell "-" (num_cell s) else num_cell (String c s)
              | s => num_cell s
              end)
    (fun b => VZ (b2z b)) (fun c => VZ (env (constant_string c)))
    (on2 Z.add) (on2 Z.mul) (on2 Z.quot) (fun a => match a with VZ z => VZ (- z) | _ => VBad end)
    (fun r => match r with
              | RLt => on2 (fun x y => b2z (x <? y)%Z) | RLe => on2 (fun x y => b2z (x <=? y)%Z)
              | REq => on2 (fun x y => b2z (x =? y)%Z)
              end)
    cond_cell (fun _ a => a)
    (fun f l => match f with
                | F_signum => signum_cell l
                | F_powi | F_powf => call_cell (VF ["std"; "pow"]) l
                | _ => call_cell (VF ["std"; function_string f]) l
                end)
    (fun f _ l => call_cell (VZ (env f)) l).

Lemma num_dec z : num_cell (dec z) = VZ z.
Proof.
  assert (Decimal.Pos Decimal.Nil <> Z.to_int z /\ Decimal.Neg Decimal.Nil <> Z.to_int z) as [P Q].
  { split; intros H; pose proof (f_equal Z.of_int H) as E; rewrite DecimalZ.of_to in E; subst z; discriminate. }
  unfold num_cell, dec. rewrite NilZero.isi by congruence. now rewrite DecimalZ.of_to.
Qed.
Lemma machine_faithful env span ftext : faithful span ftext (machine env) (integers env span ftext).
Proof.
  constructor; cbn [machine integers c_id c_num c_bool c_un c_bin c_cond c_cast c_call c_dot m_var m_arg m_elem m_field m_int
    m_float m_bool m_sym m_add m_mul m_div m_neg m_cmp m_cond m_cast m_std m_ext]; try (intros; reflexivity).
  - intros v r c. unfold dec_nat. now rewrite !num_dec.
  - intros z _. apply num_dec.
  - intros l s <- K. destruct (ftext l) as [|c t]; [reflexivity|]. destruct (Ascii.eqb_spec c "-") as [Q|]; [|reflexivity].
    subst c. cbn in K. now destruct K.
  - intros l s -> _. reflexivity.
  - now intros [].
  - intros f a N1 N2 N3 N4 N5. destruct f; try reflexivity; congruence.
  - intros [z| |]; try reflexivity. change (num_cell "0") with (VZ 0).
    assert (b2z (0 <? z) - b2z (z <? 0) = Z.sgn z)%Z as Q by (unfold b2z; destruct (Z.ltb_spec 0 z), (Z.ltb_spec z 0); lia).
    cbn. unfold signum_cell. now rewrite Q.
Qed.

(** ** The texts that are read as they are meant *)

(** No text has two readings. *)
Theorem C35_unambiguous : forall s t t', reads_as s t -> reads_as s t' -> t = t'.
Proof. intros s t t' H H'. exact (unambiguous _ _ _ H H'). Qed.
Print Assumptions C35_unambiguous.
(** a - b - c, a < b == c and so on group as in C++. *)
Example C35_unambiguous_ex :
  reads_as "a - b - c" (CBin "-" (CBin "-" (CId ["a"]) (CId ["b"])) (CId ["c"])) /\
  reads_as "a<b==-c" (CBin "==" (CBin "<" (CId ["a"]) (CId ["b"])) (CUn "-" (CId ["c"]))) /\
  reads_as "a*b ? std::pow(c, 1.5e-3) : static_cast<Scalar>(v.x)"
    (CCond (CBin "*" (CId ["a"]) (CId ["b"])) (CCall (CId ["std"; "pow"]) [CId ["c"]; CNum "1.5e-3"])
       (CCast ["Scalar"] (CDot (CId ["v"]) "x"))).
Proof. split; [|split]; apply (reads_by_parse 40); vm_compute; reflexivity. Qed.

(** The text of a tree whose operands hold together tightly enough is an expression; it is read in one way, and has the
    value that the tree stands for. *)
Theorem C35_text : forall span ftext C M e, faithful span ftext C M -> fits ftext e ->
  exists t, reads_as (cpp_text span ftext e) t /\ ceval C t = value_of M e /\
    forall t', reads_as (cpp_text span ftext e) t' -> t' = t.
Proof.
  intros span ftext C M e FF F. destruct (text_reads span ftext C M FF e F) as (t & R & E).
  exists t. split; [exact R|]. split; [exact E|]. intros t' R'. exact (C35_unambiguous _ _ _ R' R).
Qed.
Print Assumptions C35_text.
Definition no_floats : load_src -> string := fun _ => "0.5".
Definition env_ex (s : string) : Z := if String.eqb s "x" then (-1)%Z else if String.eqb s "y" then 3%Z else 7%Z.
Example C35_text_ex :
  let e := ADiv (AParen (AAdd [AVar "x"; ANeg (AVar "y"); AMul [AInt (-3); AElem (AArg "m" true) 0 2]])) (AInt (-2)) in
  fits no_floats e /\
  cpp_text true no_floats e = "(x + -y + -3 * _m(0, 2)) / -2" /\
  value_of (integers env_ex true no_floats) e = VZ 15.
Proof.
  split; [|split; reflexivity].
  apply fit_div; cbn; try lia.
  - apply fit_paren, fit_add; cbn; try lia; [now apply fit_var| |].
    + constructor; [apply fit_neg; [now apply fit_var|cbn; lia|reflexivity]|]. constructor; [|constructor].
      apply fit_mul; cbn; try lia; [apply fit_int; unfold two63; lia|constructor; [|constructor]|repeat constructor].
      apply fit_elem; [now apply fit_arg|reflexivity].
    + repeat constructor.
  - apply fit_int. unfold two63; lia.
Qed.

(** The same for a value of a block: if its operations, and those it needs that have no variable of their own, keep to
    the pairs of operations that [operand_ok] allows, then the text written for it has the value that the operation has,
    for all values [E] of the operands. *)
Theorem C35_value : forall span ftext C M N g d E k n e, faithful span ftext C M ->
  names_ok N -> (forall v, v < g_next g -> node_ok g v) -> (forall v, v < g_next g -> printable ftext g d v) ->
  valuation M N g d E -> n < g_next g -> visit_value N g d k n = Ok e ->
  exists t, reads_as (cpp_text span ftext e) t /\
    operation_value M N (op_of g n) (ty_of g n) (map E (args g n)) = Some (ceval C t) /\
    forall t', reads_as (cpp_text span ftext e) t' -> t' = t.
Proof.
  intros span ftext C M N g d E k n e FF NO NK PR VE L H.
  destruct (C35_text span ftext C M e FF (visit_fits ftext N g d NK NO PR k n e L H)) as (t & R & V & U).
  exists t. split; [exact R|]. split; [|exact U]. rewrite V. exact (visit_means N g d NK M E VE k n e L H).
Qed.
Print Assumptions C35_value.

(** A quotient compared with a square, of a block in which the square has a variable of its own. *)
Definition graph_of (l : list (op * vtype * list name)) : graph :=
  mkg (length l) (fun v => let '(o, t, a) := nth v l (OJump, TVoid, []) in mkv o t a [] 0).
Definition names_ex : names := mkn 2 (fun i => match i with 0 => Some ("m", ArgMatrix 2 3) | _ => None end) (fun v => match v with 0 => "x" | _ => "y" end).
Definition num (t : numeric) := TScalar t.
Definition block_ex : graph := graph_of
  [(OLoad (LVar 0), num NFloat, []); (OMul, num NFloat, [0; 0]); (OLoad (LArg 0 5), num NFloat, []);
   (OLoad (LInt (-3)), num NInt, []); (OCast NFloat, num NFloat, [3]); (OCallStd F_abs, num NFloat, [1]);
   (OAdd, num NFloat, [1; 2; 4]); (ONeg, num NFloat, [6]); (ODiv, num NFloat, [7; 5]); (OCompare RLe, num NBool, [8; 1])].
Example C35_value_ex :
  names_ok names_ex /\ (forall v, v < g_next block_ex -> node_ok block_ex v) /\
  (forall v, v < g_next block_ex -> printable no_floats block_ex [1] v) /\
  (let* e := visit_value names_ex block_ex [1] 10 9 in Ok (cpp_text true no_floats e))%outcome =
    Ok "-(v01 + _m(1, 2) + static_cast<Scalar>(-3)) / std::abs(v01) <= v01".
Proof.
  split; [|split; [|split]].
  - constructor; cbn [names_ex n_args n_vars].
    + intros [|i] s t H; [|discriminate]. injection H as <- <-. repeat split.
    + intros [|v]; repeat split.
  - intros v L. cbn in L. constructor.
    + do 10 (destruct v as [|v]; [cbn; intuition (subst; lia)|]). lia.
    + do 10 (destruct v as [|v]; [cbn; auto; lia|]). lia.
  - intros v L. cbn in L. constructor.
    + do 10 (destruct v as [|v]; [cbn; try exact Logic.I; unfold two63; lia|]). lia.
    + do 10 (destruct v as [|v]; [cbn; intros a r H; inversion H; subst; cbn; auto|]). lia.
    + do 10 (destruct v as [|v]; [cbn; intros a b r H; inversion H; subst; cbn; intuition (subst; reflexivity)|]). lia.
  - reflexivity.
Qed.

(** ** Texts that are read otherwise *)

(** A text that C++ reads, but not as what it was printed from. *)
Definition misread (span : bool) (ftext : load_src -> string) (e : ast) : Prop :=
  exists C M, faithful span ftext C M /\ (exists t, reads_as (cpp_text span ftext e) t) /\
    forall t, reads_as (cpp_text span ftext e) t -> ceval C t <> value_of M e.
Lemma misread_by k span ftext e env t :
  parse k 0 (lex (cpp_text span ftext e)) = Some (t, []) ->
  ceval (machine env) t <> value_of (integers env span ftext) e -> misread span ftext e.
Proof.
  intros P N. apply reads_by_parse in P. exists (machine env), (integers env span ftext).
  split; [apply machine_faithful|]. split; [now exists t|]. intros t' R. now rewrite (C35_unambiguous _ _ _ R P).
Qed.

(** Twice the sign of x: [2 * (static_cast<Scalar>(0) < x) - (x < static_cast<Scalar>(0))]. *)
Theorem C35_signum_refuted : exists e v st tree,
  lower impl_ex 20 ids_ex 20 e empty_state = Ok (v, st) /\ visit_value names_ex (l_graph st) [] 10 v = Ok tree /\
  misread true no_floats tree.
Proof.
  exists (EMul [EInt 2; EFun Fsign [vx]]).
  destruct (lower impl_ex 20 ids_ex 20 (EMul [EInt 2; EFun Fsign [vx]]) empty_state) as [[v st]| | | |] eqn:H; vm_compute in H; try discriminate.
  injection H as <- <-. do 3 eexists. split; [reflexivity|]. split; [vm_compute; reflexivity|].
  eapply (misread_by 60 _ _ _ env_ex); [vm_compute; reflexivity|]. now vm_compute.
Qed.
Print Assumptions C35_signum_refuted.

(** x times a selection, if selections are not turned into branches: [x * x < y ? x : y]. *)
Theorem C35_select_refuted : exists e v st tree,
  lower impl_ex 20 ids_ex 20 e empty_state = Ok (v, st) /\ visit_value names_ex (l_graph st) [] 10 v = Ok tree /\
  misread true no_floats tree.
Proof.
  exists (EMul [vx; ECond (ERel ExprModel.RLt vx vy) vx vy]).
  destruct (lower impl_ex 20 ids_ex 20 (EMul [vx; ECond (ERel ExprModel.RLt vx vy) vx vy]) empty_state) as [[v st]| | | |] eqn:H; vm_compute in H; try discriminate.
  injection H as <- <-. do 3 eexists. split; [reflexivity|]. split; [vm_compute; reflexivity|].
  eapply (misread_by 60 _ _ _ env_ex); [vm_compute; reflexivity|]. now vm_compute.
Qed.
Print Assumptions C35_select_refuted.

(** A negation of a negation: [--x]. *)
Theorem C35_double_minus_refuted : exists g v tree,
  node_ok g v /\ visit_value names_ex g [] 10 v = Ok tree /\ misread true no_floats tree.
Proof.
  exists (graph_of [(OLoad (LVar 0), num NFloat, []); (ONeg, num NFloat, [0]); (ONeg, num NFloat, [1])]), 2.
  eexists. split; [constructor; cbn; auto; intros a [<-|[]]; lia|]. split; [vm_compute; reflexivity|].
  eapply (misread_by 60 _ _ _ env_ex); [vm_compute; reflexivity|]. now vm_compute.
Qed.
Print Assumptions C35_double_minus_refuted.
