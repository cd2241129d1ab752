(** C49: writing the statements of a function always ends with a result. *)
From Coq Require Import String List Arith ZArith Bool Permutation Lia.
From Verif Require Import Outcome IrModel IrSpec IrProps CfgModel CfgSpec ConvModel ConvSpec ConvInv ConvTotal ConvFinish ConvProps ConvTotalProps AstModel AstSpec StmtModel StmtSpec StmtProofs StmtConv StmtTotal StmtProps.
Import ListNotations.
Open Scope outcome_scope.
Open Scope string_scope.
Open Scope nat_scope.
Open Scope list_scope.

(** On a program with branches whose operations can be written, writing the statements ends, and none of its assertions
    fires: each condition is found and known, each block is written once, each assigned variable was declared, each branch
    has a place where its ways meet, and no block is written with statements for an output it does not end in. *)
Theorem C49_total : forall N outs c b bs, branching c b bs -> writable N outs c -> first_block c = Ok b ->
  exists n ss, forall fuel, n <= fuel -> create_ast N outs c fuel = Ok ss.
Proof. intros N outs c b bs B W F. apply (create_total N outs c b bs B W F). Qed.
Print Assumptions C49_total.

Lemma graph_ex_ok : program ex_typing graph_ex 0 (seq 0 12) /\ outputs_ok graph_ex (seq 0 12) /\ returns_once graph_ex (seq 0 12) /\ no_dead graph_ex (seq 0 12) /\
  forall v, In v (seq 0 12) -> has_form stmt_names stmt_outs graph_ex v /\ forall i, op_of graph_ex v <> OGet i.
Proof.
  destruct C49_converted_ex as (P & H & R & _). split; [|split; [|split; [|split]]]; auto.
  - intros v Hv. apply in_seq in Hv. do 12 (destruct v as [|v]; [first [left; reflexivity|right; first [exists 2; cbv; tauto|exists 3; cbv; tauto|exists 5; cbv; tauto|exists 6; cbv; tauto|exists 7; cbv; tauto|exists 8; cbv; tauto|exists 9; cbv; tauto|exists 10; cbv; tauto|exists 11; cbv; tauto]]|]). lia.
  - intros v Hv. apply in_seq in Hv. destruct Hv as [_ L]. revert v L. each.
    all: split; [|intros i; vm_compute; discriminate].
    all: unfold has_form; match goal with |- context [op_of graph_ex ?v] => let o := eval vm_compute in (op_of graph_ex v) in change (op_of graph_ex v) with o end; cbv zeta iota beta.
    all: try exact Logic.I; try (vm_compute; reflexivity); try (vm_compute; auto; fail); try (vm_compute; lia).
    all: vm_compute; eauto.
Qed.
Example C49_total_ex : (exists b bs, first_block cfg_ex = Ok b /\ branching cfg_ex b bs) /\ writable stmt_names stmt_outs cfg_ex /\
  create_ast stmt_names stmt_outs cfg_ex 40 = statements_ex /\ create_ast stmt_names stmt_outs cfg_ex 4 = NoFuel.
Proof.
  destruct graph_ex_ok as (P & H & R & _ & F). destruct C49_converted_ex as (_ & _ & _ & E & _).
  split; [apply (converted_branching ex_typing graph_ex (seq 0 12) 100 true cfg_ex P H R E)|].
  split; [apply (converted_writable ex_typing graph_ex (seq 0 12) 100 true cfg_ex stmt_names stmt_outs P H R E F)|].
  vm_compute. auto.
Qed.
(** An output the function does not have cannot be written. *)
Example C49_total_unknown : create_ast stmt_names (fun _ => None) cfg_ex 40 = Throws.
Proof. vm_compute. reflexivity. Qed.

(** From a program with selects to statements: under conditions on its own operations only, the conversion to branches and
    the writing of statements both end with a result. *)
Theorem C49_converted_total : forall T g ops ct N outs, program T g 0 ops -> outputs_ok g ops -> returns_once g ops -> no_dead g ops ->
  (forall v, In v ops -> has_form N outs g v /\ forall i, op_of g v <> OGet i) ->
  exists n c ss, forall fuel, n <= fuel -> convert fuel ct g = Ok c /\ create_ast N outs c fuel = Ok ss.
Proof.
  intros T g ops ct N outs P H R L F. destruct (C33_total T g ops ct P H L) as (n & c & E).
  destruct (converted_branching T g ops n ct c P H R (E n (le_n n))) as (b & bs & Eb & B).
  pose proof (converted_writable T g ops n ct c N outs P H R (E n (le_n n)) F) as W.
  destruct (C49_total N outs c b bs B W Eb) as (m & ss & Es). exists (Nat.max n m), c, ss. intros fuel K. split; [apply E|apply Es]; lia.
Qed.
Print Assumptions C49_converted_total.
(** The program of C49_converted meets the conditions; here are two sufficient bounds. *)
Example C49_converted_total_ex : (program ex_typing graph_ex 0 (seq 0 12) /\ outputs_ok graph_ex (seq 0 12) /\ returns_once graph_ex (seq 0 12) /\ no_dead graph_ex (seq 0 12) /\
    forall v, In v (seq 0 12) -> has_form stmt_names stmt_outs graph_ex v /\ forall i, op_of graph_ex v <> OGet i) /\
  (let* c := convert 40 true graph_ex in create_ast stmt_names stmt_outs c 40) = statements_ex /\
  (let* c := convert 60 true graph_ex in create_ast stmt_names stmt_outs c 60) = statements_ex.
Proof. split; [exact graph_ex_ok|]. vm_compute. auto. Qed.
