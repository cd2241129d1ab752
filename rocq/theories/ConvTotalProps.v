(** C33: the conversion of selects always ends with a result. *)
From Coq Require Import String List Arith ZArith Bool Permutation Lia.
From Verif Require Import Outcome RangesModel IrModel IrSpec IrProofs IrProps CfgModel CfgSpec ConvModel ConvSpec ConvInv ConvCopies ConvProofs ConvTotal ConvFinish ConvProps.
Import ListNotations.
Open Scope outcome_scope.
Open Scope nat_scope.

(** On any program without dead values the conversion ends, and none of its assertions fires: no value is taken before
    all that read it, nothing stays deferred, each block that is redirected has operations and descendants, there is
    exactly one block without ancestors in the end, and all values that are read were moved out of the input block. *)
Theorem C33_total : forall T g ops convert_ternaries, program T g 0 ops -> outputs_ok g ops -> no_dead g ops ->
  exists n c, forall fuel, n <= fuel -> convert fuel convert_ternaries g = Ok c.
Proof.
  intros T g ops ct P H L. set (A := int_algebra 0 0 false). set (S := int_selecting 0 0 false).
  destruct (consistent_exists (T := T) A g 0 ops [] (fun _ => d0 A)) as (r0 & C0); auto; [intros v []|]. cbn [app] in C0.
  destruct (convert_total A S T g ops r0 P C0 H L ct _ (Nat.lt_succ_diag_r _)) as (c & E & _).
  eexists. exists c. intros fuel Lf. exact (convert_more ct _ fuel g c Lf E).
Qed.
Print Assumptions C33_total.
(** The program of C33_value; 40 steps are enough for it. *)
Example C33_total_ex : exists st c, build conv_ex = Ok st /\ no_dead (fst st) (seq 0 12) /\ (forall fuel, 40 <= fuel -> convert fuel true (fst st) = Ok c) /\ length (c_blocks c) = 12.
Proof.
  eexists. eexists. split; [vm_compute; reflexivity|]. split; [|split].
  - intros v Hv. apply in_seq in Hv. do 12 (destruct v as [|v]; [first [left; reflexivity|right; first [exists 2; cbv; tauto|exists 3; cbv; tauto|exists 5; cbv; tauto|exists 6; cbv; tauto|exists 7; cbv; tauto|exists 8; cbv; tauto|exists 9; cbv; tauto|exists 10; cbv; tauto|exists 11; cbv; tauto]]|]). lia.
  - intros fuel L. apply (convert_more true 40 fuel); auto. vm_compute. reflexivity.
  - reflexivity.
Qed.
(** Without the condition on dead values the last check fails: here -x is needed by the unused -(-x). *)
Definition dead_ex : list (op * vtype * list name) :=
  [ (OLoad (LArg 0 0), float, []); (ONeg, float, [0]); (ONeg, float, [1]); (OSave 2 "r"%string, TVoid, [0]) ].
Example C33_total_dead : instrs_ok (ft ex_typing) [] dead_ex = true /\ (let* st := build dead_ex in convert 100 true (fst st)) = Throws.
Proof. vm_compute. auto. Qed.

(** No select is left if selects are to be converted. *)
Theorem C33_no_selects : forall T g ops fuel c, program T g 0 ops -> outputs_ok g ops -> no_dead g ops ->
  convert fuel true g = Ok c -> forall t v, In v (ops_of c t) -> op_of (c_vals c) v <> OCond.
Proof.
  intros T g ops fuel c P H L E t v K. set (A := int_algebra 0 0 false). set (S := int_selecting 0 0 false).
  destruct (consistent_exists (T := T) A g 0 ops [] (fun _ => d0 A)) as (r0 & C0); auto; [intros w []|]. cbn [app] in C0.
  destruct (convert_total A S T g ops r0 P C0 H L true _ (Nat.lt_succ_diag_r _)) as (c' & E' & X).
  set (n := Datatypes.S _) in E'. assert (Ec : c' = c).
  { pose proof (convert_more true fuel (Nat.max fuel n) g c ltac:(lia) E). pose proof (convert_more true n (Nat.max fuel n) g c' ltac:(lia) E'). congruence. }
  subst c'. apply X; auto. destruct (converted A S T g ops r0 P C0 H fuel true c E) as (r & b & opts & St & _).
  rewrite (c_own _ _ _ _ _ _ _ _ _ (s_core _ _ _ _ _ _ _ _ _ _ _ St) v t K). discriminate.
Qed.
Print Assumptions C33_no_selects.
(** With selects kept there are three of them, in one block. *)
Example C33_no_selects_ex :
  (let* st := build conv_ex in let* c := convert 100 true (fst st) in Ok (filter (fun o => is_cond o) (map (op_of (c_vals c)) (flat_map b_ops (c_blocks c))))) = Ok [] /\
  (let* st := build conv_ex in let* c := convert 100 false (fst st) in Ok (length (filter (fun o => is_cond o) (map (op_of (c_vals c)) (flat_map b_ops (c_blocks c)))), length (c_blocks c))) = Ok (3, 3).
Proof. vm_compute. auto. Qed.
