(** C17: the ordering of expressions is a total order whose equality is identity. *)
From Coq Require Import String List ZArith Bool.
From Flocq Require Import IEEE754.BinarySingleNaN.
From Verif Require Import Outcome RationalModel RationalSpec RationalProofs IntFloatModel ExprModel OrderSpec OrderProofs.
Import ListNotations.
Open Scope Z_scope.
Open Scope outcome_scope.

Definition ox : expr := EVar (VNamed "x" real_set).
Definition oy : expr := EVar (VNamed "y" real_set).
Definition third : expr := ERat (mk_rat 1 3).

(** Comparing yields an answer, or the comparison of two rationals overflows inside a noexcept function. *)
Theorem C17_total : forall a b, plain a -> plain b -> (exists c, order a b = Ok c) \/ order a b = Dies.
Proof. intros a b Ha Hb. destruct (order_tree a b Ha Hb) as [E|E]; eauto. Qed.
Print Assumptions C17_total.
Example C17_total_ex :
  order (EMul [ox; oy]) (EMul [ox; oy; third]) = Ok Lt /\ order (EPow ox third) (EPow ox oy) = Ok Lt /\
  order (ERat (mk_rat 4611686018427387905 3)) (ERat (mk_rat 4611686018427387905 4)) = Dies.
Proof. repeat split; vm_compute; reflexivity. Qed.

Theorem C17_antisymmetric : forall a b, plain a -> plain b ->
  order b a = (let* c := order a b in Ok (CompOpp c)).
Proof. exact order_flip. Qed.
Print Assumptions C17_antisymmetric.
Example C17_antisymmetric_ex :
  order (EAdd [ox; oy]) (EMul [ox; oy]) = Ok Gt /\ order (EMul [ox; oy]) (EAdd [ox; oy]) = Ok Lt.
Proof. split; vm_compute; reflexivity. Qed.

Theorem C17_transitive : forall a b c x y z, plain a -> plain b -> plain c ->
  order a b = Ok x -> order b c = Ok y -> chain x y = Some z -> order a c = Ok z \/ order a c = Dies.
Proof.
  intros a b c x y z Ha Hb Hc H1 H2 HC.
  destruct (order_tree a b Ha Hb) as [E1|E1]; rewrite H1 in E1; [injection E1 as ->|discriminate].
  destruct (order_tree b c Hb Hc) as [E2|E2]; rewrite H2 in E2; [injection E2 as ->|discriminate].
  destruct (tcmp_good (tree_of a)) as (_ & _ & G). rewrite <- (G _ _ _ HC). apply order_tree; auto.
Qed.
Print Assumptions C17_transitive.
Example C17_transitive_ex :
  order third ox = Ok Lt /\ order ox (EAdd [ox; oy]) = Ok Lt /\ order third (EAdd [ox; oy]) = Ok Lt.
Proof. repeat split; vm_compute; reflexivity. Qed.

Theorem C17_equal_is_identical : forall a b, plain a -> plain b -> (order a b = Ok Eq <-> ident a b = true).
Proof.
  intros a b Ha Hb. split; [|intros; apply ident_order; auto]. intros H. rewrite ident_tree by auto.
  destruct (order_tree a b Ha Hb) as [E|E]; rewrite H in E; [injection E as <-; reflexivity|discriminate].
Qed.
Print Assumptions C17_equal_is_identical.
Example C17_equal_is_identical_ex :
  ident (ECond (ERel RLt ox oy) ox third) (ECond (ERel RLt ox oy) ox third) = true /\
  order (ECond (ERel RLt ox oy) ox third) (ECond (ERel RLe ox oy) ox third) = Ok Lt.
Proof. split; vm_compute; reflexivity. Qed.

(** A NaN constant, which a power of two doubles can produce, compares equal to every double without
    being identical to any, itself included. *)
Theorem C17_nan_refuted : exists a b, order a b = Ok Eq /\ ident a b = false.
Proof. exists (EFlt B754_nan), (EFlt B754_nan). split; vm_compute; reflexivity. Qed.
Print Assumptions C17_nan_refuted.

(** The comparison that the constructors use for sorting: by hash, then by order. *)
Theorem C17_sort_total : forall I a b, plain a -> plain b ->
  sort_lt I a b = Ok true -> sort_lt I b a = Ok false.
Proof.
  intros I a b Ha Hb. unfold sort_lt. destruct (Z.ltb_spec (i_hash I a) (i_hash I b)).
  - intros _. destruct (Z.ltb_spec (i_hash I b) (i_hash I a)); [exfalso; apply (Z.lt_irrefl (i_hash I a)); eauto using Z.lt_trans|].
    destruct (Z.gtb_spec (i_hash I b) (i_hash I a)); auto. exfalso. apply (Z.lt_irrefl (i_hash I a)). eapply Z.lt_le_trans; eauto.
  - destruct (Z.gtb_spec (i_hash I a) (i_hash I b)); [discriminate|].
    destruct (Z.ltb_spec (i_hash I b) (i_hash I a)); [exfalso; apply (Z.lt_irrefl (i_hash I a)); eapply Z.le_lt_trans; eauto|].
    destruct (Z.gtb_spec (i_hash I b) (i_hash I a)); auto. rewrite (order_flip a b) by auto.
    destruct (order a b) as [[]| | | |]; cbn; try discriminate; auto.
Qed.
Print Assumptions C17_sort_total.
Example C17_sort_total_ex : 
  sort_terms (mk_impl (fun _ => 0) (fun l => l) (fun l => l) (fun a b => a) (fun _ z => z) (fun a b => a))
    [EAdd [ox; oy]; oy; third; ox; EInt 2] = Ok [EInt 2; third; ox; oy; EAdd [ox; oy]].
Proof. vm_compute; reflexivity. Qed.
