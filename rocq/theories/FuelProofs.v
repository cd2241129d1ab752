(** A larger recursion depth never changes the outcome of the simplifying constructors. *)
From Coq Require Import String List ZArith Bool Lia.
From Verif Require Import Outcome CheckedIntModel RationalModel IntUtilsModel IntFloatModel ExprModel BuildModel.
Import ListNotations.
Open Scope Z_scope.
Open Scope outcome_scope.

Definition ole {A} (a b : outcome A) : Prop := a = NoFuel \/ a = b.

Lemma ole_refl {A} (a : outcome A) : ole a a.
Proof. now right. Qed.
Lemma ole_trans {A} (a b c : outcome A) : ole a b -> ole b c -> ole a c.
Proof. intros [->| ->]; [now left|auto]. Qed.
Lemma ole_bind {A B} (a b : outcome A) (f g : A -> outcome B) :
  ole a b -> (forall x, ole (f x) (g x)) -> ole (bind a f) (bind b g).
Proof. intros [->| ->] H; [now left|]. destruct b; cbn; try apply ole_refl. apply H. Qed.

Record ops_le (r r' : ops) : Prop := mk_ops_le {
  le_add : forall l, ole (o_add r l) (o_add r' l);
  le_mul2 : forall a b, ole (o_mul2 r a b) (o_mul2 r' a b);
  le_mul : forall l, ole (o_mul r l) (o_mul r' l);
  le_pow : forall a b, ole (o_pow r a b) (o_pow r' a b);
  le_simp : forall a b, ole (o_simp r a b) (o_simp r' a b);
  le_visit : forall p e, ole (o_visit r p e) (o_visit r' p e)
}.

Section Mono.
Variable I : impl.
Variables r r' : ops.
Hypothesis H : ops_le r r'.

Lemma efold_le {S A} (f g : S -> A -> outcome S) l : (forall s a, In a l -> ole (f s a) (g s a)) ->
  forall s, ole (efold f l s) (efold g l s).
Proof.
  induction l as [|a l IH]; intros Hf s; cbn; [apply ole_refl|]. apply ole_bind; [apply Hf; now left|].
  intros x. apply IH. intros; apply Hf; now right.
Qed.
Lemma emap_le {A B} (f g : A -> outcome B) l : (forall a, ole (f a) (g a)) -> ole (emap f l) (emap g l).
Proof.
  intros Hf. induction l as [|a l IH]; cbn; [apply ole_refl|]. apply ole_bind; [apply Hf|].
  intros x. apply ole_bind; [exact IH|]. intros; apply ole_refl.
Qed.

Ltac mono :=
  repeat first
    [ apply ole_refl
    | apply (le_add _ _ H) | apply (le_mul2 _ _ H) | apply (le_mul _ _ H) | apply (le_pow _ _ H)
    | apply (le_simp _ _ H) | apply (le_visit _ _ H)
    | match goal with |- ole (bind _ _) _ => apply ole_bind; [|intros ?] end
    | match goal with |- ole (emap _ _) _ => apply emap_le; intros ? end
    | match goal with |- ole (match ?x with _ => _ end) _ => destruct x end ].

Lemma add_term_leaf_le p e : ole (add_term_leaf I r p e) (add_term_leaf I r' p e).
Proof. unfold add_term_leaf. mono. Qed.

Fixpoint add_terms_le e : forall p, ole (add_terms I r p e) (add_terms I r' p e).
Proof.
  intros p. destruct e; try apply add_term_leaf_le. cbn [add_terms].
  revert p. induction l as [|a l IH]; intros p; cbn; [apply ole_refl|].
  apply ole_bind; [apply add_terms_le|exact IH].
Qed.

Lemma create_addition_le p : ole (create_addition I r p) (create_addition I r' p).
Proof. unfold create_addition, add_create_term. mono. Qed.

Lemma add_parts_le l : ole (add_parts I r l) (add_parts I r' l).
Proof.
  unfold add_parts. apply ole_bind; [apply efold_le; intros; apply add_terms_le|]. intros; apply create_addition_le.
Qed.
Lemma add_body_le l : ole (add_body I r l) (add_body I r' l).
Proof. unfold add_body. mono; apply add_parts_le. Qed.

Lemma insert_power_le p b e : ole (insert_power I r p b e) (insert_power I r' p b e).
Proof. unfold insert_power. mono. Qed.

Fixpoint mul_visit_le e : forall p, ole (mul_visit I r p e) (mul_visit I r' p e).
Proof.
  intros p. destruct e; try (cbn [mul_visit coeff_of]; mono; apply insert_power_le).
  cbn [mul_visit]. revert p. induction l as [|a l IH]; intros p; cbn; [apply ole_refl|].
  apply ole_bind; [apply mul_visit_le|exact IH].
Qed.

Lemma create_mul_step_le s kv : ole (create_mul_step I r s kv) (create_mul_step I r' s kv).
Proof. unfold create_mul_step. mono. Qed.
Lemma multiply_into_addition_le l c : ole (multiply_into_addition r l c) (multiply_into_addition r' l c).
Proof. unfold multiply_into_addition. mono. Qed.
Lemma create_multiplication_le p : ole (create_multiplication I r p) (create_multiplication I r' p).
Proof.
  unfold create_multiplication. apply ole_bind; [apply efold_le; intros; apply create_mul_step_le|].
  intros [args cc]. apply ole_bind; [apply ole_refl|]. intros c.
  destruct (is_zero c || is_undefined c); [apply ole_refl|].
  destruct args as [|a [|]]; try apply ole_refl. destruct a; try apply ole_refl.
  - destruct (is_one c); [apply ole_refl|]. apply multiply_into_addition_le.
Qed.
Lemma mul_parts_le l : ole (mul_parts I r l) (mul_parts I r' l).
Proof.
  unfold mul_parts. apply ole_bind; [apply efold_le; intros; apply mul_visit_le|]. intros; apply create_multiplication_le.
Qed.
Lemma mul2_body_le a b : ole (mul2_body I r a b) (mul2_body I r' a b).
Proof. unfold mul2_body. mono; first [apply mul_parts_le|apply multiply_into_addition_le]. Qed.
Lemma mul_body_le l : ole (mul_body I r l) (mul_body I r' l).
Proof. unfold mul_body. mono; apply mul_parts_le. Qed.

Lemma pow_int_rat_le b q : ole (pow_int_rat I r b q) (pow_int_rat I r' b q).
Proof. unfold pow_int_rat. mono. Qed.
Lemma pow_numerics_le b e : ole (pow_numerics I r b e) (pow_numerics I r' b e).
Proof. unfold pow_numerics. destruct b, e; try apply ole_refl. apply ole_bind; [apply pow_int_rat_le|intros; apply ole_refl]. Qed.
Lemma exp_body_le e : ole (exp_body I r e) (exp_body I r' e).
Proof. unfold exp_body, operate_on_float, of_complex. mono. Qed.
Lemma maybe_distribute_le l q : ole (maybe_distribute r l q) (maybe_distribute r' l q).
Proof. unfold maybe_distribute. mono. Qed.
Lemma simp_tail_le b e : ole (simp_tail r b e) (simp_tail r' b e).
Proof. unfold simp_tail. mono; apply maybe_distribute_le. Qed.
Lemma simp_exp_le b e : ole (simp_exp I r b e) (simp_exp I r' b e).
Proof. unfold simp_exp, maybe_exp_arg. mono; try apply exp_body_le; apply simp_tail_le. Qed.
Lemma simp_pow_le b e : ole (simp_pow I r b e) (simp_pow I r' b e).
Proof. unfold simp_pow. mono; apply simp_exp_le. Qed.
Lemma simp_const_le b e : ole (simp_const I r b e) (simp_const I r' b e).
Proof. unfold simp_const. mono; try apply exp_body_le; apply simp_pow_le. Qed.
Lemma simp_body_le b e : ole (simp_body I r b e) (simp_body I r' b e).
Proof.
  unfold simp_body. apply ole_bind; [apply pow_numerics_le|]. intros [v|]; [apply ole_refl|].
  destruct (_ && _); [apply ole_refl|]. apply simp_const_le.
Qed.
Lemma pow_body_le b e : ole (pow_body r b e) (pow_body r' b e).
Proof. unfold pow_body. mono. Qed.

Lemma step_le : ops_le (step_ops I r) (step_ops I r').
Proof.
  constructor; cbn [o_add o_mul2 o_mul o_pow o_simp o_visit step_ops]; intros.
  - apply add_body_le.
  - apply mul2_body_le.
  - apply mul_body_le.
  - apply pow_body_le.
  - apply simp_body_le.
  - apply mul_visit_le.
Qed.
End Mono.

Lemma ops_n_S I n : ops_le (ops_n I n) (ops_n I (S n)).
Proof.
  induction n; [constructor; intros; now left|]. cbn [ops_n]. now apply step_le.
Qed.

Lemma ops_n_le I n m : (n <= m)%nat -> ops_le (ops_n I n) (ops_n I m).
Proof.
  induction 1; [constructor; intros; apply ole_refl|].
  pose proof (ops_n_S I m) as HS.
  destruct IHle, HS; constructor; intros; eapply ole_trans; eauto.
Qed.
