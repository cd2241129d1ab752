(** C29, C30, C31: the passes that rewrite sums and products of a block, and their sequence. *)
From Coq Require Import String List Arith ZArith Bool Permutation Lia.
From Verif Require Import Outcome RangesModel IrModel IrSpec IrProofs IrPassProofs IrProps.
From Verif Require Import FactorModel PassModel PassProofs PassFactorProofs PassBinarizeProofs.
Import ListNotations.
Open Scope outcome_scope.
Open Scope nat_scope.

(** x*y + x*z + w. *)
Definition ex_sum : list (op * vtype * list name) :=
  [ (OLoad (LArg 0 0), float, []); (OLoad (LArg 1 0), float, []); (OLoad (LArg 2 0), float, []); (OLoad (LArg 3 0), float, []);
    (OMul, float, [0; 1]); (OMul, float, [0; 2]); (OAdd, float, [3; 4; 5]); (OSave 0 "out"%string, TVoid, [6]) ].
Example ex_sum_ok : instrs_ok (ft ex_typing) [] ex_sum = true.
Proof. vm_compute; reflexivity. Qed.

(** Factoring the sums of a block never fails and leaves every output unchanged; the result is again a program. *)
Theorem C29_factorize_block_keeps_outputs : forall T g b ops, program T g b ops ->
  exists g' ops', factorize_sums_in_block b (g, ops) = Ok (g', ops') /\
    same_outputs (g, ops) (g', ops') /\ program T g' b ops'.
Proof.
  intros T g b ops P. destruct (factorize_sums_in_block_spec g b ops P) as (g' & ops' & E & P' & S').
  exists g', ops'. split; [assumption|]. split; [eapply sim_same_outputs; eassumption|assumption].
Qed.
Print Assumptions C29_factorize_block_keeps_outputs.
Example C29_factorize_block_keeps_outputs_ex :
  run ex_sum (factorize_sums_in_block 0) =
  Ok [(0, OLoad (LArg 0 0), []); (1, OLoad (LArg 1 0), []); (2, OLoad (LArg 2 0), []); (3, OLoad (LArg 3 0), []);
      (8, OAdd, [1; 2]); (9, OMul, [0; 8]); (10, OAdd, [3; 9]); (7, OSave 0 "out", [10])].
Proof. vm_compute; reflexivity. Qed.

(** Any number of rounds of factoring, merging of products, copy forwarding and merging of duplicates. *)
Theorem C29_factorize_rounds_keep_outputs : forall T passes g b ops, program T g b ops ->
  exists g' ops', factorize_sums passes b (g, ops) = Ok (g', ops') /\
    same_outputs (g, ops) (g', ops') /\ program T g' b ops'.
Proof.
  intros T passes g b ops P. destruct (factorize_sums_spec b passes g ops P) as (g' & ops' & E & P' & S').
  exists g', ops'. split; [assumption|]. split; [eapply sim_same_outputs; eassumption|assumption].
Qed.
Print Assumptions C29_factorize_rounds_keep_outputs.
(** a*b*c + a*b*d = a*(b*(c + d)) = a*b*(c + d). *)
Example C29_factorize_rounds_keep_outputs_ex :
  let p := [ (OLoad (LArg 0 0), float, []); (OLoad (LArg 1 0), float, []); (OLoad (LArg 2 0), float, []); (OLoad (LArg 3 0), float, []);
             (OMul, float, [0; 1; 2]); (OMul, float, [0; 1; 3]); (OAdd, float, [4; 5]); (OSave 0 "out"%string, TVoid, [6]) ] in
  instrs_ok (ft ex_typing) [] p = true /\
  match run p (factorize_sums 2 0) with
  | Ok l => length (filter (fun x => is_mul (snd (fst x))) l) = 1 /\ length (filter (fun x => is_add (snd (fst x))) l) = 1
  | _ => False
  end.
Proof. vm_compute; repeat split; reflexivity. Qed.

(** Merging nested products keeps the outputs, and afterwards no product has a product as operand. *)
Theorem C29_merge_products : forall T g b ops, program T g b ops ->
  exists g' ops', merge_multiplications_in_block (g, ops) = Ok (g', ops') /\
    same_outputs (g, ops) (g', ops') /\ program T g' b ops' /\
    (forall v a, In v ops' -> op_of g' v = OMul -> In a (args g' v) -> op_of g' a <> OMul).
Proof.
  intros T g b ops P. destruct (merge_multiplications_spec g b ops P) as (g' & ops' & E & P' & S' & F).
  exists g', ops'. split; [assumption|]. split; [eapply sim_same_outputs; eassumption|]. split; [assumption|].
  intros v a Hv K Ha. now apply (F v Hv K a).
Qed.
Print Assumptions C29_merge_products.
Example C29_merge_products_ex :
  let p := [ (OLoad (LArg 0 0), float, []); (OLoad (LArg 1 0), float, []); (OMul, float, [0; 1]); (OMul, float, [2; 1]);
             (OMul, float, [3; 2; 0]); (OSave 0 "out"%string, TVoid, [4]) ] in
  instrs_ok (ft ex_typing) [] p = true /\
  run p merge_multiplications_in_block =
    Ok [(0, OLoad (LArg 0 0), []); (1, OLoad (LArg 1 0), []); (4, OMul, [0; 0; 0; 1; 1; 1]); (5, OSave 0 "out", [4])].
Proof. vm_compute; repeat split; reflexivity. Qed.

(** Splitting sums and products by shared pairs ends on every program, never fails, keeps every output, and every sum and
    product left has at least two operands.  The result does not depend on how long one is prepared to wait. *)
Theorem C30_binarize_keeps_outputs : forall T g b ops, program T g b ops ->
  exists enough g' ops', (forall fuel, enough <= fuel -> binarize_operations fuel b (g, ops) = Ok (g', ops')) /\
    same_outputs (g, ops) (g', ops') /\ program T g' b ops' /\
    (forall v, In v ops' -> op_of g' v = OAdd \/ op_of g' v = OMul -> 2 <= length (args g' v)).
Proof.
  intros T g b ops P. destruct (binarize_operations_spec b g ops P) as (f & g' & ops' & E & P' & S').
  exists f, g', ops'. split; [assumption|]. split; [eapply sim_same_outputs; eassumption|]. split; [assumption|].
  intros v Hv K. destruct P' as [B' _]. apply (bo_many _ _ _ B' v Hv). destruct K as [->| ->]; reflexivity.
Qed.
Print Assumptions C30_binarize_keeps_outputs.
(** a + a + a + b and a + a + c share a + a. *)
Example C30_binarize_keeps_outputs_ex :
  let p := [ (OLoad (LArg 0 0), float, []); (OLoad (LArg 1 0), float, []); (OLoad (LArg 2 0), float, []);
             (OAdd, float, [0; 0; 0; 1]); (OAdd, float, [0; 0; 2]); (OSave 0 "u"%string, TVoid, [3]); (OSave 0 "v"%string, TVoid, [4]) ] in
  instrs_ok (ft ex_typing) [] p = true /\
  match run p (binarize_operations 10 0) with
  | Ok l => In (7, OAdd, [0; 0]) l /\ In (4, OAdd, [2; 7]) l
  | _ => False
  end.
Proof. vm_compute. split; [reflexivity|]. split; tauto. Qed.

(** Pulling factors of -1 out of products never fails and keeps every output. *)
Theorem C31_negations_keep_outputs : forall T g b ops, program T g b ops ->
  exists g' ops', insert_negations b (g, ops) = Ok (g', ops') /\
    same_outputs (g, ops) (g', ops') /\ program T g' b ops'.
Proof.
  intros T g b ops P. destruct (insert_negations_spec g b ops P) as (g' & ops' & E & P' & S').
  exists g', ops'. split; [assumption|]. split; [eapply sim_same_outputs; eassumption|assumption].
Qed.
Print Assumptions C31_negations_keep_outputs.
(** x * (-1) * y and (-1) * x * (-1). *)
Definition ex_neg : list (op * vtype * list name) :=
  [ (OLoad (LArg 0 0), float, []); (OLoad (LArg 1 0), float, []); (OLoad (LInt (-1)), TScalar NInt, []);
    (OCast NFloat, float, [2]); (OMul, float, [0; 3; 1]); (OMul, float, [3; 0; 3]);
    (OSave 0 "u"%string, TVoid, [4]); (OSave 0 "v"%string, TVoid, [5]) ].
Example C31_negations_keep_outputs_ex :
  instrs_ok (ft ex_typing) [] ex_neg = true /\
  run ex_neg (insert_negations 0) =
    Ok [(0, OLoad (LArg 0 0), []); (1, OLoad (LArg 1 0), []); (7, OSave 0 "v", [0]); (8, OMul, [0; 1]); (9, ONeg, [8]);
        (6, OSave 0 "u", [9])].
Proof. vm_compute; split; reflexivity. Qed.

(** The whole sequence of simplifications. *)
Theorem C31_simplifications_keep_outputs : forall T passes binarize g b ops, program T g b ops ->
  exists enough g' ops',
    (forall fuel, enough <= fuel -> apply_simplifications fuel passes b binarize (g, ops) = Ok (g', ops')) /\
    same_outputs (g, ops) (g', ops') /\ program T g' b ops' /\ no_duplicates g' ops' /\
    (forall v, In v ops' -> is_sink (op_of g' v) = true \/ exists c, In c ops' /\ In v (args g' c)).
Proof.
  intros T passes binarize g b ops P.
  destruct (apply_simplifications_spec b passes binarize g ops P) as (f & g' & ops' & E & P' & S' & U & N).
  exists f, g', ops'. split; [assumption|]. split; [eapply sim_same_outputs; eassumption|]. split; [assumption|]. split; [assumption|].
  intros v Hv. apply (used_or_sink g' b ops' v P'). now apply U.
Qed.
Print Assumptions C31_simplifications_keep_outputs.
Example C31_simplifications_keep_outputs_ex :
  run ex_neg (apply_simplifications 10 2 0 true) =
    Ok [(0, OLoad (LArg 0 0), []); (1, OLoad (LArg 1 0), []); (9, ONeg, [0]); (4, OMul, [1; 9]); (6, OSave 0 "u", [4]);
        (10, ONeg, [9]); (7, OSave 0 "v", [10])] /\
  run ex_neg (apply_simplifications 10 2 0 false) =
    Ok [(0, OLoad (LArg 0 0), []); (1, OLoad (LArg 1 0), []); (7, OSave 0 "v", [0]); (8, OMul, [0; 1]); (9, ONeg, [8]);
        (6, OSave 0 "u", [9])].
Proof. vm_compute; split; reflexivity. Qed.
