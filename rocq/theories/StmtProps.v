(** C49: the statements of a function do what its blocks do. *)
From Coq Require Import String List Arith ZArith Bool Permutation Lia.
From Verif Require Import Outcome IrModel IrSpec IrProps CfgModel CfgSpec ConvModel ConvSpec ConvProps AstModel AstSpec StmtModel StmtSpec StmtProofs StmtConv.
Import ListNotations.
Open Scope outcome_scope.
Open Scope string_scope.
Open Scope nat_scope.
Open Scope list_scope.

(** Executing the statements written for a program with branches hands out what executing its blocks does, in the same
    order and with the same values; on the way no variable is read before it has a value, none is declared twice or
    assigned out of its scope, whichever branches are taken. *)
Theorem C49_statements : forall (A : algebra) (Q : selecting A) (M : meaning (D A)) N outs outer c b bs n fuel e o ss,
  branching c b bs -> expresses A M N c -> separate N outer c -> first_block c = Ok b ->
  ConvSpec.run A Q c n None b (start A) = Some (e, o) -> create_ast N outs c fuel = Ok ss ->
  function_outputs A Q M outer ss = Some (map (as_output A) o).
Proof. exact create_ast_runs. Qed.
Print Assumptions C49_statements.

Definition stmt_names : names := mkn 2 (fun i => nth i [Some ("x", ArgScalar); Some ("y", ArgScalar)] None) (fun _ => "q").
Definition stmt_outer (s : string) : bool := existsb (String.eqb s) ["x"; "y"; "q"].
Definition stmt_outs (s : string) : option arg_type := if String.eqb s "o" then Some ArgScalar else None.
Definition int_meaning (x y : Z) : meaning Z := {|
  m_var := fun _ => 0%Z; m_arg := fun s _ => if String.eqb s "x" then x else if String.eqb s "y" then y else 0%Z;
  m_elem := fun a _ _ => a; m_field := fun a _ => a; m_int := fun z => z; m_float := fun _ => 0%Z;
  m_bool := fun b => if b then 1%Z else 0%Z; m_sym := fun _ => 0%Z; m_add := Z.add; m_mul := Z.mul; m_div := Z.div; m_neg := Z.opp;
  m_cmp := fun r a b => match r with RLt => if (a <? b)%Z then 1%Z else 0%Z | RLe => if (a <=? b)%Z then 1%Z else 0%Z | REq => if (a =? b)%Z then 1%Z else 0%Z end;
  m_cond := fun c a b => if Z.eqb c 0 then b else a; m_cast := fun _ a => a; m_std := fun _ _ => 0%Z; m_ext := fun _ _ _ => 0%Z |}.
Definition statements_ex : outcome (list stmt) :=
  let* st := build conv_ex in let* c := convert 100 true (fst st) in create_ast stmt_names stmt_outs c 40.
Definition outputs_ex (x y : Z) (asked : bool) : outcome (option (list (option string * Z))) :=
  let* ss := statements_ex in Ok (function_outputs (int_algebra x y asked) (int_selecting x y asked) (int_meaning x y) stmt_outer ss).
Example C49_statements_ex :
  statements_ex = Ok [
    SDeclare "v01" (Some (AArg "y" false)); SDeclare "v00" (Some (AArg "x" false));
    SDeclare "v03" (Some (AMul [AVar "v00"; AVar "v01"])); SDeclare "v02" (Some (ACompare RLt (AVar "v00") (AVar "v01")));
    SDeclare "v08" None;
    SBranch (ACompare RLe (AVar "v03") (AVar "v01"))
      [SDeclare "v05" None;
       SBranch (AVar "v02") [SAssign "v05" (AVar "v03")] [SAssign "v05" (AAdd [AVar "v00"; AVar "v01"])];
       SAssign "v08" (ANeg (AVar "v05"))]
      [SAssign "v08" (AVar "v01")];
    SOptional "o"
      [SDeclare "v10" None; SBranch (AVar "v02") [SAssign "v10" (AVar "v08")] [SAssign "v10" (AVar "v03")];
       SOutput "o" (AVar "v10")];
    SReturn (AVar "v08")] /\
  [outputs_ex 2 3 true; outputs_ex 2 3 false; outputs_ex (-2) 3 true; outputs_ex 3 (-2) true] =
  [Ok (Some [(Some "o", 3%Z); (None, 3%Z)]); Ok (Some [(None, 3%Z)]);
   Ok (Some [(Some "o", 6%Z); (None, 6%Z)]); Ok (Some [(Some "o", (-6)%Z); (None, (-1)%Z)])].
Proof. vm_compute. auto. Qed.

(** Programs whose selects became branches are of that form: the statements written for them hand out the outputs of the
    program with selects, each exactly once and with the same value: all that are required and the optional ones the caller
    asked for. *)
Theorem C49_converted : forall T g ops fuel ct c, program T g 0 ops -> outputs_ok g ops -> returns_once g ops ->
  convert fuel ct g = Ok c ->
  forall (A : algebra) (Q : selecting A) (M : meaning (D A)) N outs outer n ss,
  expresses A M N c -> separate N outer c -> create_ast N outs c n = Ok ss ->
  exists e0 o, exec A g ops (no_values A) = Some e0 /\ Permutation o (filter (wanted Q) (outputs A g e0 ops)) /\
    function_outputs A Q M outer ss = Some (map (as_output A) o).
Proof.
  intros T g ops fuel ct c P H R1 E A Q M N outs outer n ss Ex Sp Es.
  destruct (converted_branching T g ops fuel ct c P H R1 E) as (b & bs & Eb & B).
  destruct (C33_value T g ops fuel ct c P H E A Q) as (e0 & b' & k & e & o & X1 & X2 & X3 & X4).
  assert (b' = b) by congruence. subst b'. exists e0, o. repeat (split; auto).
  apply (C49_statements A Q M N outs outer c b bs k n e o ss); auto.
Qed.
Print Assumptions C49_converted.

(** The example is one of these, for all inputs. *)
Definition graph_ex : graph := match build conv_ex with Ok st => fst st | _ => empty_graph end.
Definition cfg_ex : cfg := match convert 100 true graph_ex with Ok c => c | _ => mkc empty_graph [] end.
Lemma below_ex (P : nat -> Prop) k : (forall v, v < k -> P v) -> (forall v, P (k + v)) -> forall v : nat, P v.
Proof. intros H1 H2 v. destruct (Nat.lt_ge_cases v k) as [L|L]; auto. replace v with (k + (v - k)) by lia. apply H2. Qed.
Ltac each := let v := fresh "v" in let L := fresh in intros v L; do 12 try (destruct v as [|v]; [clear L|]); [..|exfalso; lia].
Example C49_converted_ex : program ex_typing graph_ex 0 (seq 0 12) /\ outputs_ok graph_ex (seq 0 12) /\ returns_once graph_ex (seq 0 12) /\
  convert 100 true graph_ex = Ok cfg_ex /\ separate stmt_names stmt_outer cfg_ex /\
  (forall x y asked, expresses (int_algebra x y asked) (int_meaning x y) stmt_names cfg_ex) /\
  exists ss, create_ast stmt_names stmt_outs cfg_ex 40 = Ok ss /\ length ss = 8.
Proof.
  split; [|split; [|split; [|split; [|split; [|split]]]]].
  - destruct (C28_programs_exist ex_typing conv_ex) as (g & E & P); [reflexivity|]. unfold graph_ex. rewrite E. exact P.
  - split.
    + apply (below_ex _ 12); [each; vm_compute; reflexivity|intros v; vm_compute; reflexivity].
    + intros v u k L. replace (g_next graph_ex) with 12 in L by (vm_compute; reflexivity). revert v L. each; intros E; vm_compute in E; try discriminate; injection E as <- <-.
      all: split; [cbn; tauto|]; split; [lia|]; apply (below_ex _ 12); [each; vm_compute; intuition discriminate|intros w Hw; vm_compute in Hw; exact Hw].
  - split.
    + intros v key L. apply in_seq in L. destruct L as [_ L]. revert v L. each; vm_compute; discriminate.
    + intros v w k k' Lv Lw. apply in_seq in Lv, Lw. destruct Lv as [_ Lv], Lw as [_ Lw].
      assert (K : forall v, v < 12 -> forall k, op_of graph_ex v = OSave 2 k -> v = 9) by (each; intros q E; vm_compute in E; congruence).
      intros E1 E2. rewrite (K v Lv k E1), (K w Lw k' E2). reflexivity.
  - vm_compute. reflexivity.
  - split.
    + intros [|[|i]] s t E; cbn in E; try (injection E as <- <-; reflexivity). destruct i; discriminate.
    + reflexivity.
    + refine (below_ex (fun t => forall v, In v (ops_of cfg_ex t) -> stmt_outer (variable_name (n_width stmt_names) v) = false) 12 _ _); [each; intros v Hv; vm_compute in Hv; intuition subst; vm_compute; reflexivity|intros [|t] v Hv; vm_compute in Hv; contradiction].
  - intros x y asked. unfold expresses. match goal with |- forall t, @?P t => apply (below_ex P 12) end; [each; intros v l Hv; vm_compute in Hv; repeat match type of Hv with _ \/ _ => destruct Hv as [<-|Hv] | False => destruct Hv end|intros [|t] v l Hv; vm_compute in Hv; contradiction].
    all: match goal with |- context [control ?o] => let o' := eval vm_compute in o in change o with o' end.
    all: match goal with |- context [length _ = ?n] => let n' := eval vm_compute in n in change n with n' end.
    all: intros C El; try discriminate C; destruct l as [|a [|b [|d l]]]; try discriminate El; clear C El.
    all: match goal with |- context [ty_of ?c ?v] => let t := eval vm_compute in (ty_of c v) in change (ty_of c v) with t end.
    all: cbv -[Z.add Z.mul Z.opp Z.ltb Z.leb Z.eqb]; f_equal; try reflexivity; ring.
  - eexists. split; [vm_compute; reflexivity|reflexivity].
Qed.
