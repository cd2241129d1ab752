(** The blocks made from a program mean what its expressions do, and the programs made from expressions are sources. *)
From Coq Require Import String List Arith ZArith Bool Permutation Lia.
From Verif Require Import Outcome ZeroProofs IrModel IrSpec IrProofs CfgModel CfgSpec ConvModel ConvSpec ConvInv ConvCopies ConvProofs ConvProps AstModel AstSpec StmtModel StmtSpec StmtConv PipeSpec.
Import ListNotations.
Open Scope nat_scope.

Lemma converted_expresses T g ops fuel ct c N outs A M : program T g 0 ops -> outputs_ok g ops -> returns_once g ops -> convert fuel ct g = Ok c ->
  (forall v, In v ops -> has_form N outs g v /\ forall i, op_of g v <> OGet i) -> interprets A M N -> expresses A M N c.
Proof.
  intros P H R1 E F Im t v l Kv Cv El.
  destruct (converted_writable T g ops fuel ct c N outs P H R1 E F) as [Wf _ _]. pose proof (Wf t v Kv) as W.
  set (B := int_algebra 0 0 false). set (S := int_selecting 0 0 false).
  destruct (consistent_exists (T := T) B g 0 ops [] (fun _ => d0 B)) as (r0 & C0); auto; [intros w []|]. cbn [app] in C0.
  destruct (converted B S T g ops r0 P C0 H fuel ct c E) as (r & e & opts & St & Pl & _ & Kin).
  pose proof (s_ar _ _ _ _ _ _ _ _ _ _ _ St v t Kv) as Ar.
  assert (K : no_expression (op_of (c_vals c) v) = false /\ (commutative (op_of (c_vals c) v) = true -> 0 < length (args (c_vals c) v))).
  { destruct (s_keep _ _ _ _ _ _ _ _ _ _ _ St v t Kv) as [(L & Eo & Eln)|Mk].
    - pose proof (Kin v t Kv L) as Iv. destruct (F v Iv) as [X Y]. unfold has_form in X. rewrite Eo in *. rewrite Eln. destruct P as [Bk _].
      pose proof (bo_many _ _ _ Bk v Iv) as Mn. destruct (op_of g v) eqn:Ev; cbn in Cv |- *; try discriminate; try (now destruct (Y i)); try (now destruct X);
        (split; [reflexivity|]); try discriminate; intros C; specialize (Mn C); lia.
    - destruct (op_of (c_vals c) v) eqn:Ev; cbn in Mk, Cv |- *; try contradiction; try discriminate; (split; [reflexivity|discriminate]). }
  destruct K as [K1 K2]. apply Im; auto.
  - now rewrite El.
  - intros C. specialize (K2 C). intros ->. cbn in El. lia.
  - intros a i Eo. unfold has_form in W. rewrite Eo in W. exact W.
  - intros a Eo. unfold has_form in W. rewrite Eo in W. exact W.
Qed.
Lemma apart_separate N outer c : apart N outer -> separate N outer c.
Proof. intros [A V T]. split; auto. Qed.
