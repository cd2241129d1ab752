(** C28 and C32: duplicate and dead code elimination, order of operations. *)
From Coq Require Import String List Arith ZArith Bool Permutation Lia.
From Verif Require Import Outcome RangesModel IrModel IrSpec IrProofs IrPassProofs.
Import ListNotations.
Open Scope outcome_scope.
Open Scope nat_scope.

Definition float := TScalar NFloat.
Definition show (st : graph * list name) : list (name * op * list name) :=
  map (fun v => (v, op_of (fst st) v, args (fst st) v)) (snd st).
Definition run (p : list (op * vtype * list name)) (f : graph * list name -> outcome (graph * list name)) :=
  let* st := build p in let* st' := f st in Ok (show st').

(** A typing: sums, products, negations, copies, quotients and calls have the type of their first operand. *)
Definition ex_ft (o : op) (l : list vtype) : vtype :=
  match o with
  | OLoad (LInt _) => TScalar NInt
  | OLoad (LBool _) | OCompare _ => TScalar NBool
  | OCast t => TScalar t
  | OConstruct t => t
  | OCond => nth 1 l TVoid
  | OSave _ _ => TVoid
  | OLoad _ | OGet _ => float
  | _ => hd float l
  end.
Definition ex_typing : typing.
Proof.
  refine {| ft := ex_ft |}; try reflexivity. intros o t l H; destruct o; try discriminate; reflexivity.
Defined.

(** x * y + y * x, and a constant that nothing uses. *)
Definition ex1 : list (op * vtype * list name) :=
  [ (OLoad (LArg 0 0), float, []); (OLoad (LArg 1 0), float, []); (OMul, float, [0; 1]); (OMul, float, [1; 0]);
    (OAdd, float, [2; 3]); (OLoad (LInt 7), TScalar NInt, []); (OSave 0 "out"%string, TVoid, [4]) ].

(** Every sequence of operations whose operands come first and that fit their operation is a program. *)
Theorem C28_programs_exist : forall T p, instrs_ok (ft T) [] p = true ->
  exists g, build p = Ok (g, seq 0 (length p)) /\ program T g 0 (seq 0 (length p)).
Proof. intros T. exact build_program. Qed.
Print Assumptions C28_programs_exist.
Example C28_programs_exist_ex : instrs_ok (ft ex_typing) [] ex1 = true.
Proof. vm_compute; reflexivity. Qed.

(** A program never gets stuck, whatever the inputs and the functions it calls are. *)
Theorem C28_programs_run : forall T g b ops, program T g b ops ->
  forall A : algebra, exists e, exec A g ops (no_values A) = Some e /\ forall v, In v ops -> e v <> None.
Proof.
  intros Ty g b ops P A. destruct (sim_same_outputs g b ops g b ops P P (sim_refl g ops) A) as (e & _ & E & _).
  exists e. split; [assumption|]. intros v Hv. destruct P as [B _]. apply (exec_all_set A g ops _ e E v Hv).
Qed.
Print Assumptions C28_programs_run.
Example C28_programs_run_ex : (let* st := build ex1 in Ok (show st)) =
  Ok [(0, OLoad (LArg 0 0), []); (1, OLoad (LArg 1 0), []); (2, OMul, [0; 1]); (3, OMul, [0; 1]);
      (4, OAdd, [2; 3]); (5, OLoad (LInt 7), []); (6, OSave 0 "out", [4])].
Proof. vm_compute; reflexivity. Qed.

(** Merging duplicates never fails, keeps every output, keeps the invariants of the graph (no dangling operands, exact
    consumer lists, operands first), leaves only operations that are used, and no two that are the same. *)
Theorem C28_eliminate_duplicates : forall T g b ops, program T g b ops ->
  exists g' ops', eliminate_duplicates (g, ops) = Ok (g', ops') /\
    same_outputs (g, ops) (g', ops') /\
    program T g' b ops' /\ incl ops' ops /\
    (forall v c, In c ops' -> In v (args g' c) -> In v ops') /\
    (forall v, In v ops' -> is_sink (op_of g' v) = true \/ exists c, In c ops' /\ In v (args g' c)) /\
    no_duplicates g' ops' /\
    (forall v, In v ops -> is_sink (op_of g v) = true -> In v ops').
Proof.
  intros Ty g b ops P. destruct (eliminate_duplicates_spec g b ops P) as (g' & ops' & E & P' & S & I & U & D & O).
  exists g', ops'. split; [assumption|]. split; [eapply sim_same_outputs; eassumption|].
  split; [assumption|]. split; [assumption|]. split; [|split; [|split; [assumption|]]].
  - intros v c Hc Hv. destruct P' as [_ O']. eapply args_in; eassumption.
  - intros v Hv. apply (used_or_sink g' b ops' v P'). now apply U.
  - intros v Hv Hs. destruct P as [B _]. destruct (op_of g v) eqn:Eo; try discriminate.
    + destruct (bo_plain _ _ _ B v Hv) as (_ & K & _). congruence.
    + destruct (sim_save _ _ _ _ S v usage key) as [K _]. now apply K.
Qed.
Print Assumptions C28_eliminate_duplicates.
Example C28_eliminate_duplicates_ex :
  run ex1 eliminate_duplicates =
  Ok [(0, OLoad (LArg 0 0), []); (1, OLoad (LArg 1 0), []); (2, OMul, [0; 1]); (4, OAdd, [2; 2]); (6, OSave 0 "out", [4])].
Proof. vm_compute; reflexivity. Qed.

(** Removing unused operations keeps exactly those that some output depends on, with their operands. *)
Theorem C28_remove_unused : forall T g b ops, program T g b ops ->
  exists g' ops', remove_unused g ops = (g', ops') /\
    same_outputs (g, ops) (g', ops') /\ program T g' b ops' /\ incl ops' ops /\
    (forall v, In v ops' <-> live g ops v) /\
    (forall v, In v ops' -> op_of g' v = op_of g v /\ args g' v = args g v).
Proof.
  intros Ty g b ops P. destruct (remove_unused_live g b ops P) as (g' & ops' & E & P' & S & I & L & F).
  exists g', ops'. split; [assumption|]. split; [eapply sim_same_outputs; eassumption|]. auto.
Qed.
Print Assumptions C28_remove_unused.
Example C28_remove_unused_ex :
  run ex1 (fun st => Ok (remove_unused (fst st) (snd st))) =
  Ok [(0, OLoad (LArg 0 0), []); (1, OLoad (LArg 1 0), []); (2, OMul, [0; 1]); (3, OMul, [0; 1]);
      (4, OAdd, [2; 3]); (6, OSave 0 "out", [4])].
Proof. vm_compute; reflexivity. Qed.

(** Copies within a block are forwarded. *)
Theorem C28_eliminate_copies : forall T g b ops, program T g b ops ->
  exists g' ops', eliminate_needless_copies (g, ops) = Ok (g', ops') /\
    same_outputs (g, ops) (g', ops') /\ program T g' b ops' /\ incl ops' ops /\
    (forall v, In v ops' -> op_of g' v <> OCopy).
Proof.
  intros Ty g b ops P. destruct (eliminate_needless_copies_spec g b ops P) as (g' & ops' & E & P' & S & I & C & O).
  exists g', ops'. split; [assumption|]. split; [eapply sim_same_outputs; eassumption|]. auto.
Qed.
Print Assumptions C28_eliminate_copies.
Example C28_eliminate_copies_ex :
  let p := [ (OLoad (LArg 0 0), float, []); (OCopy, float, [0]); (OCopy, float, [1]); (OMul, float, [2; 1]);
             (OSave 0 "out"%string, TVoid, [3]) ] in
  instrs_ok (ft ex_typing) [] p = true /\
  run p eliminate_needless_copies = Ok [(0, OLoad (LArg 0 0), []); (3, OMul, [0; 0]); (4, OSave 0 "out", [3])].
Proof. vm_compute; split; reflexivity. Qed.

(** The final order of the operations of an acyclic block is a permutation of them, in which operands come first and each
    operation is the one with the least name among those possible; the assertion that all were reached never fails. *)
Theorem C32_topological_sort : forall T g b ops l,
  program T g b l -> Permutation l ops ->
  exists out, topological_sort_values g b ops = Ok out /\
    Permutation out ops /\ ordered g out /\ tsorted g ops out.
Proof.
  intros Ty g b ops l P Q. destruct (topological_sort_spec g b ops l P Q) as (out & E & Pm & T).
  exists out. split; [assumption|]. split; [assumption|]. split; [now apply tsorted_ordered in T|assumption].
Qed.
Print Assumptions C32_topological_sort.
Example C32_topological_sort_ex :
  (let* st := build ex1 in topological_sort_values (fst st) 0 [6; 4; 5; 3; 2; 1; 0]) = Ok [0; 1; 2; 3; 4; 5; 6].
Proof. vm_compute; reflexivity. Qed.

(** The order only depends on the set of operations, not on the order in which they were queued. *)
Theorem C32_order_is_canonical : forall T g b ops ops' l,
  program T g b l -> Permutation l ops -> Permutation l ops' ->
  topological_sort_values g b ops = topological_sort_values g b ops'.
Proof.
  intros Ty g b ops ops' l P Q Q'. destruct (topological_sort_spec g b ops l P Q) as (out & E & Pm & T).
  destruct (topological_sort_spec g b ops' l P Q') as (out' & E' & Pm' & T'). rewrite E, E'. f_equal.
  assert (R : Permutation ops' ops) by (rewrite <- Q; now apply Permutation_sym).
  apply (tsorted_unique g ops); [assumption|now rewrite Pm'| |assumption|].
  - apply (Permutation_NoDup Q). apply P.
  - intros l1 x l2 El. destruct (T' l1 x l2 El) as [H1 H2]. split; [assumption|].
    intros y Hy. apply H2. apply (Permutation_in y (Permutation_sym R) Hy).
Qed.
Print Assumptions C32_order_is_canonical.
Example C32_order_is_canonical_ex :
  (let* st := build ex1 in topological_sort_values (fst st) 0 [6; 4; 5; 3; 2; 1; 0]) =
  (let* st := build ex1 in topological_sort_values (fst st) 0 [3; 5; 1; 0; 2; 6; 4]).
Proof. vm_compute; reflexivity. Qed.

(** Reordering does not change the outputs. *)
Theorem C32_same_outputs : forall T g b ops l out,
  program T g b l -> Permutation l ops -> topological_sort_values g b ops = Ok out ->
  program T g b out /\ same_outputs (g, l) (g, out).
Proof.
  intros Ty g b ops l out P Q E. destruct (topological_sort_spec g b ops l P Q) as (out' & E' & Pm & T).
  rewrite E in E'. injection E' as <-.
  assert (Pl : Permutation l out) by (rewrite Q; now apply Permutation_sym).
  assert (P' : program Ty g b out).
  { split; [apply (block_ok_perm g b l out Pl); apply P|now apply tsorted_ordered in T]. }
  split; [assumption|]. eapply sim_same_outputs; [eassumption|eassumption|].
  apply (sim_perm_r g l g l out Pl). apply sim_refl.
Qed.
Print Assumptions C32_same_outputs.
Example C32_same_outputs_ex :
  let p := [ (OLoad (LArg 0 0), float, []); (OCallStd F_sin, float, [0]); (OLoad (LArg 1 0), float, []);
             (OMul, float, [1; 2]); (OSave 0 "out"%string, TVoid, [3]) ] in
  instrs_ok (ft ex_typing) [] p = true /\
  (let* st := build p in topological_sort_values (fst st) 0 [4; 3; 2; 1; 0]) = Ok [0; 1; 2; 3; 4].
Proof. vm_compute; split; reflexivity. Qed.
