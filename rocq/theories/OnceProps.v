(** C51: the statements of a function compute nothing twice. *)
From Coq Require Import String List Arith ZArith Bool Permutation Lia.
From Verif Require Import Outcome IrModel IrSpec IrProofs IrProps CfgModel CfgSpec ConvModel ConvSpec ConvInv ConvCopies ConvConvert ConvProofs ConvProps AstModel AstSpec StmtModel StmtSpec StmtRegion StmtProofs StmtConv StmtTotal StmtProps StmtTotalProps OnceSpec OnceProofs.
Import ListNotations.
Open Scope outcome_scope.
Open Scope string_scope.
Open Scope nat_scope.
Open Scope list_scope.

(** In the statements written for a program with branches there are no more additions, multiplications, divisions,
    negations, comparisons, selections and calls than the blocks have: an operation is written at most once, in the
    declaration of its variable or where its only use is.  If no value of a branch is its result and an operand there. *)
Theorem C51_once : forall N outs c b bs fuel ss, branching c b bs -> def_use (c_vals c) ->
  (forall t v i, In v (ops_of c t) -> op_of (c_vals c) v <> OGet i) -> not_shared c -> first_block c = Ok b ->
  create_ast N outs c fuel = Ok ss -> list_sum (map written ss) <= total_cost c.
Proof. intros N outs c b bs fuel ss B U G S E1 E2. exact (written_once N outs c b bs B G fuel U S b E1 ss E2 eq_refl). Qed.
Print Assumptions C51_once.

(** For a program with selects: each of its operations is written at most once, whatever branches there are. *)
Lemma sum_incl (f h : name -> nat) l l' : NoDup l -> (forall x, In x l -> f x <= h x /\ (f x = 0 \/ In x l')) -> list_sum (map f l) <= list_sum (map h l').
Proof.
  revert l'. induction l as [|a l IH]; intros l' ND H; [cbn; lia|]. inversion ND as [|? ? Na ND']; subst. cbn [map list_sum fold_right].
  change (fold_right Nat.add 0 (map f l)) with (list_sum (map f l)). destruct (H a (or_introl eq_refl)) as [Ha [Z|Ia]].
  - rewrite Z. apply IH; auto. intros x Hx. apply H. now right.
  - apply in_split in Ia. destruct Ia as (l1 & l2 & ->). rewrite map_app, list_sum_app. cbn [map list_sum fold_right].
    change (fold_right Nat.add 0 (map h l2)) with (list_sum (map h l2)).
    assert (list_sum (map f l) <= list_sum (map h (l1 ++ l2))); [|rewrite map_app, list_sum_app in *; lia].
    apply IH; auto. intros x Hx. destruct (H x (or_intror Hx)) as [H1 H2]. split; auto. destruct H2 as [Z|I]; auto. right. rewrite in_app_iff in *. destruct I as [I|[->|I]]; auto. contradiction.
Qed.
Theorem C51_converted : forall T g ops fuel ct c, program T g 0 ops -> outputs_ok g ops -> returns_once g ops ->
  (forall v i, In v ops -> op_of g v <> OGet i) -> convert fuel ct g = Ok c -> not_shared c ->
  forall N outs n ss, create_ast N outs c n = Ok ss -> list_sum (map written ss) <= list_sum (map (cost g) ops).
Proof.
  intros T g ops fuel ct c P H R1 NG E NS N outs n ss Es.
  destruct (converted_branching T g ops fuel ct c P H R1 E) as (b & bs & Eb & B).
  set (A := int_algebra 0 0 false). set (S := int_selecting 0 0 false).
  destruct (consistent_exists (T := T) A g 0 ops [] (fun _ => d0 A)) as (r0 & C0); auto; [intros v []|]. cbn [app] in C0.
  destruct (converted A S T g ops r0 P C0 H fuel ct c E) as (r & e & opts & St & Pl & _ & Kin).
  pose proof (s_core _ _ _ _ _ _ _ _ _ _ _ St) as CO.
  etransitivity; [apply (C51_once N outs c b bs n ss); auto|].
  - apply (c_use _ _ _ _ _ _ _ _ _ CO).
  - intros t v i Kv Ov. destruct (s_keep _ _ _ _ _ _ _ _ _ _ _ St v t Kv) as [(L & Eo & _)|M]; [|rewrite Ov in M; exact M].
    apply (NG v i); [now apply (Kin v t)|congruence].
  - rewrite <- (total_values c b bs B). apply sum_incl; [apply (values_nodup c b bs B)|]. intros v Iv. apply (values_in c b bs B) in Iv. destruct Iv as (t & Kv).
    destruct (s_keep _ _ _ _ _ _ _ _ _ _ _ St v t Kv) as [(L & Eo & El)|M].
    + split; [|right; now apply (Kin v t)]. unfold cost. rewrite Eo, El. auto.
    + assert (Z : cost (c_vals c) v = 0); [|rewrite Z; split; [lia|now left]]. unfold cost. destruct (op_of (c_vals c) v); auto; contradiction.
Qed.
Print Assumptions C51_converted.

(** In the example of C49 all five operations are written, once each. *)
Definition apart (c : cfg) (v : name) : bool :=
  is_load (op_of (c_vals c) v) || negb (existsb (fun w => is_phi (op_of (c_vals c) w)) (cons_of (c_vals c) v)) ||
  forallb (fun w => is_phi (op_of (c_vals c) w)) (cons_of (c_vals c) v).
Lemma apart_shared c b bs : branching c b bs -> forallb (apart c) (flat_map b_ops (c_blocks c)) = true -> not_shared c.
Proof.
  intros B K. rewrite forallb_forall in K. intros t v w w' Kv Cv Nc Iw Iw' Ow.
  assert (Iv : In v (flat_map b_ops (c_blocks c))).
  { apply in_flat_map. exists (block c t). split; [|exact Kv]. apply nth_In. apply (br_all _ _ _ B). now apply (ops_in c b bs B t v). }
  specialize (K v Iv). unfold apart in K. apply (br_use _ _ _ B) in Iw, Iw'. apply orb_true_iff in K. destruct K as [K|K]; [apply orb_true_iff in K; destruct K as [K|K]|].
  - exfalso. apply Nc. destruct (op_of (c_vals c) v) eqn:Ov; try discriminate K. now apply constant_load with l.
  - exfalso. apply negb_true_iff in K. rewrite <- not_true_iff_false in K. apply K. apply existsb_exists. exists w. split; auto. now rewrite Ow.
  - rewrite forallb_forall in K. now apply is_phi_spec, K.
Qed.
Lemma not_shared_ex : not_shared cfg_ex.
Proof.
  destruct graph_ex_ok as (P & H & R & _ & F). destruct C49_converted_ex as (_ & _ & _ & E & _).
  destruct (converted_branching ex_typing graph_ex (seq 0 12) 100 true cfg_ex P H R E) as (b & bs & _ & B).
  apply (apart_shared cfg_ex b bs B). vm_compute. reflexivity.
Qed.
Example C51_once_ex : (exists b bs, first_block cfg_ex = Ok b /\ branching cfg_ex b bs) /\ def_use (c_vals cfg_ex) /\ not_shared cfg_ex /\
  (let* ss := create_ast stmt_names stmt_outs cfg_ex 40 in Ok (list_sum (map written ss))) = Ok 5 /\ total_cost cfg_ex = 5.
Proof.
  destruct graph_ex_ok as (P & H & R & _ & F). destruct C49_converted_ex as (_ & _ & _ & E & _).
  split; [apply (converted_branching ex_typing graph_ex (seq 0 12) 100 true cfg_ex P H R E)|].
  split; [|split; [apply not_shared_ex|vm_compute; auto]].
  set (A := int_algebra 0 0 false). set (S := int_selecting 0 0 false).
  destruct (consistent_exists (T := ex_typing) A graph_ex 0 (seq 0 12) [] (fun _ => d0 A)) as (r0 & C0); auto; [intros v []|]. cbn [app] in C0.
  destruct (converted A S ex_typing graph_ex (seq 0 12) r0 P C0 H 100 true cfg_ex E) as (r & e & opts & St & _).
  apply (c_use _ _ _ _ _ _ _ _ _ (s_core _ _ _ _ _ _ _ _ _ _ _ St)).
Qed.
Example C51_converted_ex : (program ex_typing graph_ex 0 (seq 0 12) /\ outputs_ok graph_ex (seq 0 12) /\ returns_once graph_ex (seq 0 12) /\
    (forall v i, In v (seq 0 12) -> op_of graph_ex v <> OGet i) /\ not_shared cfg_ex) /\
  list_sum (map (cost graph_ex) (seq 0 12)) = 8.
Proof.
  destruct graph_ex_ok as (P & H & R & _ & F). split; [|vm_compute; reflexivity]. split; auto. split; auto. split; auto. split; [|apply not_shared_ex].
  intros v i Hv. apply (F v Hv).
Qed.

(** Without the condition it is false.  Here x*y is the result of a branch and, negated, of another on the same condition.
    It has one use of each kind, so it gets no variable and is written twice:
    [if (x < y) { v05 = x*y; v06 = -(x*y); } else { v05 = y; v06 = x; }]. *)
Definition shared_ex : list (op * vtype * list name) :=
  [ (OLoad (LArg 0 0), float, []); (OLoad (LArg 1 0), float, []); (OCompare RLt, TScalar NBool, [0; 1]); (OMul, float, [0; 1]); (ONeg, float, [3]);
    (OCond, float, [2; 3; 1]); (OCond, float, [2; 4; 0]); (OSave 2 "r", TVoid, [6]); (OSave 1 "o", TVoid, [5]) ].
Theorem C51_shared_refuted : exists g c ss, instrs_ok (ft ex_typing) [] shared_ex = true /\
  (let* st := build shared_ex in Ok (fst st)) = Ok g /\ program ex_typing g 0 (seq 0 9) /\ convert 100 true g = Ok c /\
  create_ast stmt_names stmt_outs c 40 = Ok ss /\ total_cost c = 3 /\ list_sum (map written ss) = 4 /\
  In (SBranch (ACompare RLt (AVar "v00") (AVar "v01"))
        [SAssign "v05" (AMul [AVar "v00"; AVar "v01"]); SAssign "v06" (ANeg (AParen (AMul [AVar "v00"; AVar "v01"])))]
        [SAssign "v05" (AVar "v01"); SAssign "v06" (AVar "v00")]) ss.
Proof.
  destruct (C28_programs_exist ex_typing shared_ex) as (g & E & P); [reflexivity|].
  eexists g, _, _. split; [reflexivity|]. split; [rewrite E; reflexivity|]. split; [exact P|].
  vm_compute in E. injection E as <-. split; [vm_compute; reflexivity|]. split; [vm_compute; reflexivity|]. split; [vm_compute; reflexivity|].
  split; [vm_compute; reflexivity|]. vm_compute. auto 10.
Qed.
Print Assumptions C51_shared_refuted.
