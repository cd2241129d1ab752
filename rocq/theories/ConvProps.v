(** C33: selects become branches. *)
From Coq Require Import String List Arith ZArith Bool Permutation Lia.
From Verif Require Import Outcome RangesModel IrModel IrSpec IrProofs IrPassProofs IrProps CfgModel CfgSpec MergeProofs CountProofs CfgProps ConvModel ConvSpec ConvShape ConvInv ConvCopies ConvRun ConvProofs.
Import ListNotations.
Open Scope outcome_scope.
Open Scope nat_scope.

(** Three selects, two on the same condition, one below another; one result and one optional output. *)
Definition conv_ex : list (op * vtype * list name) :=
  [ (OLoad (LArg 0 0), float, []); (OLoad (LArg 1 0), float, []); (OCompare RLt, TScalar NBool, [0; 1]); (OMul, float, [0; 1]); (OAdd, float, [0; 1]);
    (OCond, float, [2; 3; 4]); (ONeg, float, [5]); (OCompare RLe, TScalar NBool, [3; 1]); (OCond, float, [7; 6; 1]); (OSave 2 "r"%string, TVoid, [8]);
    (OCond, float, [2; 8; 3]); (OSave 0 "o"%string, TVoid, [10]) ].
Definition show_cfg (c : cfg) : list (list (name * op * list name) * list nat * list nat) :=
  map (fun b => (map (fun v => (v, op_of (c_vals c) v, args (c_vals c) v)) (b_ops b), b_anc b, b_desc b)) (c_blocks c).
(** Integers, with the inputs x and y and a caller that asks for the optional output or not. *)
Definition int_sem (x y : Z) (asked : bool) (o : op) (l : list Z) : Z :=
  match o, l with
  | OAdd, l => fold_right Z.add 0%Z l
  | OMul, l => fold_right Z.mul 1%Z l
  | ONeg, [a] => (- a)%Z
  | OLoad (LInt i), [] => i
  | OLoad (LArg 0 _), [] => x
  | OLoad (LArg 1 _), [] => y
  | OCompare RLt, [a; b] => if (a <? b)%Z then 1%Z else 0%Z
  | OCompare RLe, [a; b] => if (a <=? b)%Z then 1%Z else 0%Z
  | OCond, [c; a; b] => if Z.eqb c 0 then b else a
  | OOutReq _, [] => if asked then 1%Z else 0%Z
  | OCopy, [a] | OSave _ _, [a] | OCast _, [a] => a
  | _, _ => 0%Z
  end.
Definition int_algebra (x y : Z) (asked : bool) : algebra.
Proof.
  refine {| D := Z; d0 := 0%Z; d1 := 1%Z; dadd := Z.add; dmul := Z.mul; dsub := Z.sub; dopp := Z.opp; d_ring := InitialRing.Zth; sem := int_sem x y asked |}; reflexivity.
Defined.
Definition int_selecting (x y : Z) (asked : bool) : selecting (int_algebra x y asked).
Proof. refine {| truth := fun c : D (int_algebra x y asked) => negb (Z.eqb c 0) |}. intros c a b. cbn. destruct (Z.eqb c 0); reflexivity. Defined.

Definition run_ex (x y : Z) (asked : bool) (c : cfg) : option (list (nat * string * Z)) :=
  option_map snd (ConvSpec.run _ (int_selecting x y asked) c 12 None 8 (start _)).

(** Executing the branching program, from its one entry, never gets stuck and hands out, each exactly once and with the
    same value, the outputs of the program with selects: all that are required and the optional ones the caller asked
    for.  Whatever the inputs, the functions called and the operations are; with selects kept or not. *)
Theorem C33_value : forall T g ops fuel convert_ternaries c, program T g 0 ops -> outputs_ok g ops ->
  convert fuel convert_ternaries g = Ok c ->
  forall (A : algebra) (S : selecting A), exists e0 b n e outs,
    exec A g ops (no_values A) = Some e0 /\ first_block c = Ok b /\
    ConvSpec.run A S c n None b (start A) = Some (e, outs) /\ Permutation outs (filter (wanted S) (outputs A g e0 ops)).
Proof.
  intros T g ops fuel ct c P H E A S.
  destruct (consistent_exists (T := T) A g 0 ops [] (fun _ => d0 A)) as (r0 & C0); auto; [intros v []|].
  destruct (exec_consistent (T := T) A g 0 ops [] (no_values A) r0) as (e0 & X & V); auto; [intros v []|]. cbn [app] in *.
  destruct (convert_runs A S T g ops r0 P C0 H fuel ct c e0 E V) as (b & n & e & outs & Y1 & Y2 & Y3).
  exists e0, b, n, e, outs. auto.
Qed.
Print Assumptions C33_value.
Example C33_value_ex : instrs_ok (ft ex_typing) [] conv_ex = true /\
  (let* st := build conv_ex in let* c := convert 100 true (fst st) in Ok (show_cfg c)) =
  Ok [ ([(9, OSave 2 "r", [8])], [1; 2], []);
       ([(10, OPhi, [14; 15]); (11, OSave 0 "o", [10])], [3; 4], [0]);
       ([(8, OPhi, [6; 18]); (12, OOutReq "o", []); (13, OJump, [12])], [6; 7], [5; 0]);
       ([(14, OCopy, [8])], [5], [1]); ([(15, OCopy, [3])], [5], [1]); ([(16, OJump, [2])], [2], [3; 4]);
       ([(5, OPhi, [20; 4]); (6, ONeg, [5])], [9; 10], [2]); ([(18, OCopy, [1])], [8], [2]);
       ([(1, OLoad (LArg 1 0), []); (0, OLoad (LArg 0 0), []); (3, OMul, [0; 1]); (2, OCompare RLt, [0; 1]);
         (7, OCompare RLe, [3; 1]); (19, OJump, [7])], [], [11; 7]);
       ([(20, OCopy, [3])], [11], [6]); ([(4, OAdd, [0; 1])], [11], [6]); ([(22, OJump, [2])], [8], [9; 10]) ] /\
  (let* st := build conv_ex in let* c := convert 100 true (fst st) in
   Ok [run_ex 2 3 true c; run_ex 2 3 false c; run_ex (-2) 3 true c; run_ex 3 (-2) true c]) =
  Ok [ Some [(0, "o"%string, 3%Z); (2, "r"%string, 3%Z)]; Some [(2, "r"%string, 3%Z)]; Some [(0, "o"%string, 6%Z); (2, "r"%string, 6%Z)];
       Some [(0, "o"%string, (-6)%Z); (2, "r"%string, (-1)%Z)] ].
Proof. vm_compute. auto. Qed.

(** Every operand is computed on every way to its use: on any way from the entry to the block of an operation there is a
    block that computes the operand, before the operation if it is the same block.  A phi function has one operand from
    each of the two blocks in front of it. *)
Lemma leads_upath c b t p : (forall a x, In x (desc c a) <-> In a (anc c x)) -> anc c b = [] -> leads (desc c) b t p -> upath (anc c) t (rev p).
Proof.
  intros SE Re Hp. assert (K : forall a q, upath (anc c) a (a :: q) -> leads (desc c) a t p -> upath (anc c) t (rev p ++ q)).
  { clear Hp. intros a q Up L. revert q Up. induction L as [b0|a x b0 p Hx L IH]; intros q Up; cbn; auto.
    rewrite <- app_assoc. apply IH. cbn. apply up_step with a; auto. now apply SE. }
  rewrite <- (app_nil_r (rev p)). apply (K b); auto. now apply up_root.
Qed.
Theorem C33_defined : forall T g ops fuel convert_ternaries c, program T g 0 ops -> outputs_ok g ops ->
  convert fuel convert_ternaries g = Ok c -> exists b, first_block c = Ok b /\
  forall t v, In v (ops_of c t) ->
    (op_of (c_vals c) v <> OPhi -> forall a, In a (args (c_vals c) v) -> exists u, In a (ops_of c u) /\
       (forall p, leads (desc c) b t p -> In u p) /\ (u = t -> before (ops_of c t) a v)) /\
    (op_of (c_vals c) v = OPhi -> exists l r x y, anc c t = [l; r] /\ l <> r /\ args (c_vals c) v = [x; y] /\
       In x (ops_of c l) /\ In y (ops_of c r)).
Proof.
  intros T g ops fuel ct c P H E. set (A := int_algebra 0 0 false). set (S := int_selecting 0 0 false).
  destruct (consistent_exists (T := T) A g 0 ops [] (fun _ => d0 A)) as (r0 & C0); auto; [intros v []|]. cbn [app] in C0.
  destruct (converted A S T g ops r0 P C0 H fuel ct c E) as (r & b & opts & St & Pl & _).
  pose proof (s_core _ _ _ _ _ _ _ _ _ _ _ St) as CO. pose proof (c_shape _ _ _ _ _ _ _ _ _ CO) as Sh.
  exists b. split; [apply (entry_first A S g fuel ct c E r b opts St)|]. intros t v Kv. split.
  - intros Np a Ha. destruct (operand_there A S g r opts c _ b St Pl v t a Kv Np Ha) as (u & _ & Du & Ka & Bf). exists u. split; auto. split; auto.
    intros p Lp. apply in_rev. apply Du. apply (leads_upath c b t p); auto; [apply (sh_edge _ _ _ _ Sh)|apply (sh_root _ _ _ _ Sh)].
  - intros Ov. destruct (c_phi _ _ _ _ _ _ _ _ _ CO v t Kv Ov) as (L & R & cl & cr & J & l & jv & cd & Y1 & Y2 & Y3 & Y4 & Y5 & _). exists L, R, cl, cr. auto.
Qed.
Print Assumptions C33_defined.
(** In the example the sum, operation 4, is computed in a block of its own only where the first select is false; the
    product, operation 3, is used in both branches and above. *)
Example C33_defined_ex : exists c, (let* st := build conv_ex in convert 100 true (fst st)) = Ok c /\ first_block c = Ok 8 /\
  In 4 (ops_of c 10) /\ args (c_vals c) 4 = [0; 1] /\ In 0 (ops_of c 8) /\ leads (desc c) 8 10 [8; 11; 10] /\ leads (desc c) 8 0 [8; 7; 2; 0] /\
  op_of (c_vals c) 8 = OPhi /\ anc c 2 = [6; 7].
Proof.
  eexists. split; [vm_compute; reflexivity|]. split; [reflexivity|]. split; [cbv; auto|]. split; [reflexivity|]. split; [cbv; auto 10|].
  split; [apply leads_next with 11; [cbv; auto|]; apply leads_next with 10; [cbv; auto|]; apply leads_here|].
  split; [apply leads_next with 7; [cbv; auto|]; apply leads_next with 2; [cbv; auto|]; apply leads_next with 0; [cbv; auto|]; apply leads_here|]. split; reflexivity.
Qed.

(** The blocks are structured control flow without cycles, with a jump at the end of a block exactly if there are two ways
    to go on: what the search for merge points (C34) and the count of operations (C36) ask for. *)
Theorem C33_structured : forall T g ops fuel convert_ternaries c, program T g 0 ops -> outputs_ok g ops ->
  convert fuel convert_ternaries g = Ok c -> exists b bs, first_block c = Ok b /\ region (desc c) b None bs /\
  (forall t, In t bs <-> t < length (c_blocks c)) /\ acyclic (desc c) /\ (forall a x, In x (desc c a) <-> In a (anc c x)) /\
  (forall t, In t bs -> jumps_match c t).
Proof.
  intros T g ops fuel ct c P H E. set (A := int_algebra 0 0 false). set (S := int_selecting 0 0 false).
  destruct (consistent_exists (T := T) A g 0 ops [] (fun _ => d0 A)) as (r0 & C0); auto; [intros v []|]. cbn [app] in C0.
  destruct (converted A S T g ops r0 P C0 H fuel ct c E) as (r & b & opts & St & Pl & _).
  pose proof (s_core _ _ _ _ _ _ _ _ _ _ _ St) as CO. pose proof (c_shape _ _ _ _ _ _ _ _ _ CO) as Sh.
  destruct (sh_region _ _ _ _ Sh) as (bs & R & Ha). exists b, bs. split; [apply (entry_first A S g fuel ct c E r b opts St)|]. split; auto. split; auto.
  split; [apply (shape_acyclic _ _ _ _ Sh)|]. split; [apply (sh_edge _ _ _ _ Sh)|]. intros t Ht. pose proof (region_two _ _ _ _ R t Ht) as L2.
  unfold jumps_match, last_op. destruct (desc c t) as [|x [|y [|z q]]] eqn:Ed; auto; [| |cbn in L2; lia].
  - assert (Ne : ops_of c t <> []) by (apply (s_one _ _ _ _ _ _ _ _ _ _ _ St); now rewrite Ed). destruct (rev (ops_of c t)) as [|v q] eqn:Er.
    + exfalso. apply Ne. apply (f_equal (@rev name)) in Er. now rewrite rev_involutive in Er.
    + exists v. split; auto. intros Ov. assert (Kv : In v (ops_of c t)) by (apply in_rev; rewrite Er; now left). destruct (c_jump _ _ _ _ _ _ _ _ _ CO v t Kv Ov) as [L _]. rewrite Ed in L. discriminate.
  - destruct (c_two _ _ _ _ _ _ _ _ _ CO t) as (l & jv & cd & Y1 & Y2 & _); [now rewrite Ed|]. exists jv. rewrite Y1, rev_app_distr. auto.
Qed.
Print Assumptions C33_structured.
Example C33_structured_ex : exists c, (let* st := build conv_ex in convert 100 true (fst st)) = Ok c /\
  region (desc c) 8 None (8 :: [11; 9; 10; 6] ++ [7] ++ [2; 5; 3; 4; 1; 0]) /\ counts_of (compute_operation_counts 20 c) = Some [1; 4; 0; 2; 0; 1; 1].
Proof.
  assert (Nd : forall l, (fix nd (l : list nat) := match l with [] => true | x :: t => negb (existsb (Nat.eqb x) t) && nd t end) l = true -> NoDup l).
  { induction l as [|x t IH]; intros H; [constructor|]. apply andb_true_iff in H. destruct H as [H1 H2]. constructor; auto. intros K. apply negb_true_iff in H1.
    assert (existsb (Nat.eqb x) t = true) by (apply existsb_exists; exists x; split; auto; apply Nat.eqb_refl). congruence. }
  assert (Out : forall (k : option nat) l, match k with Some m => negb (existsb (Nat.eqb m) l) | None => true end = true -> forall m, k = Some m -> ~ In m l).
  { intros k l H m -> K. apply negb_true_iff in H. assert (existsb (Nat.eqb m) l = true) by (apply existsb_exists; exists m; split; auto; apply Nat.eqb_refl). congruence. }
  eexists. split; [vm_compute; reflexivity|]. split; [|vm_compute; reflexivity].
  apply (region_branch _ 8 11 7 2 None [11; 9; 10; 6] [7] [2; 5; 3; 4; 1; 0]); [reflexivity| | | |cbv; auto|apply Nd; reflexivity|apply Out; reflexivity].
  - apply (region_branch _ 11 9 10 6 (Some 2) [9] [10] [6]); [reflexivity| | | |cbv; auto|apply Nd; reflexivity|apply Out; reflexivity].
    + apply region_step with 6; [reflexivity|constructor|cbv; tauto|discriminate].
    + apply region_step with 6; [reflexivity|constructor|cbv; tauto|discriminate].
    + apply region_step with 2; [reflexivity|constructor|cbv; tauto|discriminate].
  - apply region_step with 2; [reflexivity|constructor|cbv; tauto|discriminate].
  - apply (region_branch _ 2 5 0 0 None [5; 3; 4; 1] [] [0]); [reflexivity| | | |cbv; auto|apply Nd; reflexivity|apply Out; reflexivity].
    + apply (region_branch _ 5 3 4 1 (Some 0) [3] [4] [1]); [reflexivity| | | |cbv; auto|apply Nd; reflexivity|apply Out; reflexivity].
      * apply region_step with 1; [reflexivity|constructor|cbv; tauto|discriminate].
      * apply region_step with 1; [reflexivity|constructor|cbv; tauto|discriminate].
      * apply region_step with 0; [reflexivity|constructor|cbv; tauto|discriminate].
    + constructor.
    + constructor. reflexivity.
Qed.

(** The operation counts reported for a converted program are the largest of any of its executions. *)
Theorem C36_converted : forall T g ops fuel convert_ternaries c, program T g 0 ops -> outputs_ok g ops ->
  convert fuel convert_ternaries g = Ok c -> exists b W F, first_block c = Ok b /\ (forall fuel, F <= fuel -> compute_operation_counts fuel c = Ok W) /\
    (forall p l, path (desc c) b p -> executed c l p <= W l) /\ (forall l, exists p, path (desc c) b p /\ executed c l p = W l).
Proof.
  intros T g ops fuel ct c P H E. destruct (C33_structured T g ops fuel ct c P H E) as (b & bs & F1 & R & _ & Ac & _ & J).
  destruct (C36_worst_case c b bs F1 R Ac J) as (W & F & X). exists b, W, F. auto.
Qed.
Print Assumptions C36_converted.
Example C36_converted_ex : exists c, (let* st := build conv_ex in convert 100 true (fst st)) = Ok c /\ path (desc c) 8 [8; 11; 10; 6; 2; 5; 3; 1; 0] /\
  executed c CBranch [8; 11; 10; 6; 2; 5; 3; 1; 0] = 4 /\ executed c CAdd [8; 11; 10; 6; 2; 5; 3; 1; 0] = 1 /\ executed c CBranch [8; 7; 2; 0] = 2.
Proof.
  eexists. split; [vm_compute; reflexivity|]. split; [|vm_compute; auto].
  repeat (apply path_end; reflexivity) || (repeat (eapply path_step; [|first [apply path_end; reflexivity|idtac]])). all: cbv; auto.
Qed.
