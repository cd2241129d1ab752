(** C04, C05, C06, C08: rational constants. *)
From Coq Require Import ZArith QArith Lia.
From Verif Require Import Outcome CheckedIntModel CheckedIntProofs RationalModel RationalSpec RationalProofs.
Open Scope Z_scope.

(** C04.  Missing: arguments equal to INT64_MIN (see the refutation below). *)
Theorem C04_make : forall n d, in_i64 n -> in_i64 d -> d <> 0 ->
  (n <> INT64_MIN -> d <> INT64_MIN ->
     exists r, rat_make n d = Ok r /\ canonical (num r) (den r) /\ same_fraction n d (num r) (den r)) /\
  (n = INT64_MIN \/ d = INT64_MIN -> rat_make n d = UB).
Proof. intros n d Hn Hd H0. split; [now intros; apply create_pair_ok|apply rat_make_min]. Qed.
Print Assumptions C04_make.
Example C04_make_ex : rat_make 6 (-4) = Ok (mk_rat (-3) 2) /\ rat_make 0 (-7) = Ok (mk_rat 0 1)
  /\ rat_make (-9223372036854775807) (-7) = Ok (mk_rat 1317624576693539401 1).
Proof. repeat split; vm_compute; reflexivity. Qed.

(** C04 fails as stated: 64-bit arguments for which construction has undefined behaviour (std::gcd on INT64_MIN). *)
Theorem C04_make_refuted : exists n d, in_i64 n /\ in_i64 d /\ d <> 0 /\ rat_make n d = UB.
Proof.
  exists INT64_MIN, 3. repeat split; vm_compute; discriminate || reflexivity.
Qed.
Print Assumptions C04_make_refuted.

(** A zero denominator is accepted: it terminates the process for 0/0 and otherwise yields +-1/0. *)
Theorem C04_zero_denominator : forall n, in_i64 n -> n <> INT64_MIN ->
  (n = 0 -> rat_make n 0 = Dies) /\ (n <> 0 -> rat_make n 0 = Ok (mk_rat (Z.sgn n) 0)).
Proof.
  intros n H Hm. split; intros H0; [subst; exact rat_make_0_0|apply rat_make_d0; assumption].
Qed.
Print Assumptions C04_zero_denominator.
Example C04_zero_denominator_ex : rat_make (-12) 0 = Ok (mk_rat (-1) 0).
Proof. vm_compute; reflexivity. Qed.

(** Equal fractions have equal canonical representations. *)
Theorem C04_unique : forall n d n' d',
  canonical n d -> canonical n' d' -> same_fraction n d n' d' -> n = n' /\ d = d'.
Proof. exact canonical_unique. Qed.
Print Assumptions C04_unique.
Example C04_unique_ex : rat_make 10 (-4) = rat_make (-35) 14 /\ canonical (-5) 2.
Proof. split; [vm_compute; reflexivity|]. repeat split; vm_compute; discriminate || reflexivity. Qed.

Theorem C04_idempotent : forall r, canonical (num r) (den r) -> num r <> INT64_MIN ->
  rat_make (num r) (den r) = Ok r.
Proof. exact rat_make_idem. Qed.
Print Assumptions C04_idempotent.
Example C04_idempotent_ex : rat_make (-5) 2 = Ok (mk_rat (-5) 2).
Proof. vm_compute; reflexivity. Qed.

(** Conversion to integer succeeds exactly on integers. *)
Theorem C04_try_convert_to_integer : forall r, canonical (num r) (den r) ->
  exists o, rat_try_int r = Ok o /\
    (forall z, o = Some z -> Qeq (frac (num r) (den r)) (inject_Z z)) /\
    (o = None -> forall z, ~ Qeq (frac (num r) (den r)) (inject_Z z)).
Proof. exact rat_try_int_spec. Qed.
Print Assumptions C04_try_convert_to_integer.
Example C04_try_convert_to_integer_ex :
  rat_try_int (mk_rat (-4) 1) = Ok (Some (-4)) /\ rat_try_int (mk_rat 5 2) = Ok None.
Proof. split; vm_compute; reflexivity. Qed.

(** normalized(): integer part towards zero and proper remainder of the same sign. *)
Theorem C04_normalized : forall r, canonical (num r) (den r) ->
  exists q f, rat_normalized r = Ok (q, f) /\ q = trunc_of (num r) (den r) /\ canonical (num f) (den f) /\
    Qeq (frac (num r) (den r)) (inject_Z q + frac (num f) (den f)) /\ Z.abs (num f) < den f /\
    (num f = 0 \/ Z.sgn (num f) = Z.sgn (num r)).
Proof. exact rat_normalized_spec. Qed.
Print Assumptions C04_normalized.
Example C04_normalized_ex : rat_normalized (mk_rat (-22) 7) = Ok (-3, mk_rat (-1) 7).
Proof. vm_compute; reflexivity. Qed.

(** C05.  For all canonical operands: overflow of an intermediate throws, otherwise the result is exact and canonical.
    Missing: an intermediate numerator (or divisor product) equal to INT64_MIN, which is undefined behaviour. *)
Theorem C05_add : forall a b, canonical (num a) (den a) -> canonical (num b) (den b) ->
  (add_fits a b -> add_n a b <> INT64_MIN ->
     exists r, rat_add a b = Ok r /\ canonical (num r) (den r) /\
       Qeq (frac (num r) (den r)) (frac (num a) (den a) + frac (num b) (den b))) /\
  (add_fits a b -> add_n a b = INT64_MIN -> rat_add a b = UB) /\
  (~ add_fits a b -> rat_add a b = Throws).
Proof.
  intros a b Ha Hb. destruct (rat_add_spec a b Ha Hb) as [H1 H2].
  split; [|split; [intros F; exact (proj2 (H1 F))|exact H2]].
  intros F M. destruct (H1 F) as [H _]. destruct (H M) as (r & E & C & V). exists r.
  split; [exact E|]. split; [exact C|]. fold (ratQ r). rewrite V.
  apply frac_plus; [exact (proj1 Ha)|exact (proj1 Hb)].
Qed.
Print Assumptions C05_add.
Example C05_add_ex : rat_add (mk_rat 1 6) (mk_rat (-5) 3) = Ok (mk_rat (-3) 2)
  /\ rat_add (mk_rat 1 4611686018427387904) (mk_rat 1 3) = Throws.
Proof. split; vm_compute; reflexivity. Qed.

Theorem C05_sub : forall a b, canonical (num a) (den a) -> canonical (num b) (den b) ->
  (sub_fits a b -> sub_n a b <> INT64_MIN ->
     exists r, rat_sub a b = Ok r /\ canonical (num r) (den r) /\
       Qeq (frac (num r) (den r)) (frac (num a) (den a) - frac (num b) (den b))) /\
  (sub_fits a b -> sub_n a b = INT64_MIN -> rat_sub a b = UB) /\
  (~ sub_fits a b -> rat_sub a b = Throws).
Proof.
  intros a b Ha Hb. destruct (rat_sub_spec a b Ha Hb) as [H1 H2].
  split; [|split; [intros F; exact (proj2 (H1 F))|exact H2]].
  intros F M. destruct (H1 F) as [H _]. destruct (H M) as (r & E & C & V). exists r.
  split; [exact E|]. split; [exact C|]. fold (ratQ r). rewrite V.
  apply frac_minus; [exact (proj1 Ha)|exact (proj1 Hb)].
Qed.
Print Assumptions C05_sub.
Example C05_sub_ex : rat_sub (mk_rat 1 6) (mk_rat (-5) 3) = Ok (mk_rat 11 6).
Proof. vm_compute; reflexivity. Qed.

Theorem C05_mul : forall a b, canonical (num a) (den a) -> canonical (num b) (den b) ->
  (mul_fits a b -> num a * num b <> INT64_MIN ->
     exists r, rat_mul a b = Ok r /\ canonical (num r) (den r) /\
       Qeq (frac (num r) (den r)) (frac (num a) (den a) * frac (num b) (den b))) /\
  (mul_fits a b -> num a * num b = INT64_MIN -> rat_mul a b = UB) /\
  (~ mul_fits a b -> rat_mul a b = Throws).
Proof.
  intros a b Ha Hb. destruct (rat_mul_spec a b Ha Hb) as [H1 H2].
  split; [|split; [intros F; exact (proj2 (H1 F))|exact H2]].
  intros F M. destruct (H1 F) as [H _]. destruct (H M) as (r & E & C & V). exists r.
  split; [exact E|]. split; [exact C|]. fold (ratQ r). rewrite V.
  apply frac_mult; [exact (proj1 Ha)|exact (proj1 Hb)].
Qed.
Print Assumptions C05_mul.
Example C05_mul_ex : rat_mul (mk_rat 4 3) (mk_rat (-9) 10) = Ok (mk_rat (-6) 5).
Proof. vm_compute; reflexivity. Qed.

Theorem C05_div : forall a b, canonical (num a) (den a) -> canonical (num b) (den b) -> num b <> 0 ->
  (div_fits a b -> num a * den b <> INT64_MIN -> den a * num b <> INT64_MIN ->
     exists r, rat_div a b = Ok r /\ canonical (num r) (den r) /\
       Qeq (frac (num r) (den r)) (frac (num a) (den a) / frac (num b) (den b))) /\
  (div_fits a b -> num a * den b = INT64_MIN \/ den a * num b = INT64_MIN -> rat_div a b = UB) /\
  (~ div_fits a b -> rat_div a b = Throws).
Proof. exact rat_div_spec. Qed.
Print Assumptions C05_div.
Example C05_div_ex : rat_div (mk_rat 4 3) (mk_rat (-8) 9) = Ok (mk_rat (-3) 2).
Proof. vm_compute; reflexivity. Qed.

(** Division by the rational 0 never throws: it returns 1/0 or -1/0, or terminates on 0/0. *)
Theorem C05_div_zero_refuted : exists a b, canonical (num a) (den a) /\ canonical (num b) (den b) /\
  num b = 0 /\ rat_div a b = Ok (mk_rat 1 0) /\ rat_div b b = Dies.
Proof.
  exists (mk_rat 3 2), (mk_rat 0 1). repeat split; vm_compute; discriminate || reflexivity.
Qed.
Print Assumptions C05_div_zero_refuted.

Theorem C05_div_zero : forall a b, canonical (num a) (den a) -> canonical (num b) (den b) -> num b = 0 ->
  (num a = 0 -> rat_div a b = Dies) /\
  (num a <> 0 -> num a <> INT64_MIN -> rat_div a b = Ok (mk_rat (Z.sgn (num a)) 0)) /\
  (num a = INT64_MIN -> rat_div a b = UB).
Proof. exact rat_div_zero. Qed.
Print Assumptions C05_div_zero.
Example C05_div_zero_ex : rat_div (mk_rat (-7) 3) (mk_rat 0 1) = Ok (mk_rat (-1) 0).
Proof. vm_compute; reflexivity. Qed.

(** "Exact or throws" fails when an intermediate is INT64_MIN: here 2^62/1 * -2/1. *)
Theorem C05_exact_or_throws_refuted : exists a b,
  canonical (num a) (den a) /\ canonical (num b) (den b) /\ rat_mul a b = UB.
Proof.
  exists (mk_rat 4611686018427387904 1), (mk_rat (-2) 1).
  repeat split; vm_compute; discriminate || reflexivity.
Qed.
Print Assumptions C05_exact_or_throws_refuted.

(** The remainder operator: when it returns, it is the fractional part of a / b. *)
Theorem C05_rem : forall a b r, canonical (num a) (den a) -> canonical (num b) (den b) -> num b <> 0 ->
  rat_rem a b = Ok r ->
  canonical (num r) (den r) /\ Z.abs (num r) < den r /\
  exists k, Qeq (frac (num a) (den a) / frac (num b) (den b)) (inject_Z k + frac (num r) (den r)) /\
            (num r = 0 \/ Qlt 0 (frac (num r) (den r) * (frac (num a) (den a) / frac (num b) (den b)))).
Proof. exact rat_rem_spec. Qed.
Print Assumptions C05_rem.
Example C05_rem_ex : rat_rem (mk_rat (-7) 3) (mk_rat 1 2) = Ok (mk_rat (-2) 3).
Proof. vm_compute; reflexivity. Qed.

(** ... which is not the remainder a - b * trunc(a / b). *)
Theorem C05_rem_is_remainder_refuted : exists a b r,
  canonical (num a) (den a) /\ canonical (num b) (den b) /\ num b <> 0 /\ rat_rem a b = Ok r /\
  forall k, ~ Qeq (frac (num a) (den a)) (inject_Z k * frac (num b) (den b) + frac (num r) (den r)).
Proof.
  exists (mk_rat 7 3), (mk_rat 1 2), (mk_rat 2 3).
  split; [repeat split; vm_compute; discriminate || reflexivity|].
  split; [repeat split; vm_compute; discriminate || reflexivity|].
  split; [discriminate|]. split; [vm_compute; reflexivity|].
  intros k. unfold Qeq, Qmult, Qplus, inject_Z, frac; cbn [num den Z.to_pos Qnum Qden].
  rewrite ?Pos2Z.inj_mul. lia.
Qed.
Print Assumptions C05_rem_is_remainder_refuted.

(** C06. *)
Theorem C06_int_order : forall a b, int_order a b = Z.compare a b.
Proof. exact order_by_comparison_compare. Qed.
Print Assumptions C06_int_order.
Example C06_int_order_ex : int_order (-3) 2 = Lt /\ int_order INT64_MAX INT64_MIN = Gt.
Proof. split; vm_compute; reflexivity. Qed.

Theorem C06_identity : forall a b, canonical (num a) (den a) -> canonical (num b) (den b) ->
  (rat_eqb a b = true <-> Qeq (frac (num a) (den a)) (frac (num b) (den b))).
Proof. exact rat_eqb_spec. Qed.
Print Assumptions C06_identity.
Example C06_identity_ex : rat_eqb (mk_rat 1 2) (mk_rat 1 3) = false /\ rat_eqb (mk_rat 1 2) (mk_rat 1 2) = true.
Proof. split; vm_compute; reflexivity. Qed.

(** Missing: the cross products must fit; otherwise the process is terminated (see below). *)
Theorem C06_order : forall a b, canonical (num a) (den a) -> canonical (num b) (den b) ->
  (order_fits a b -> rat_order a b = Ok (Qcompare (frac (num a) (den a)) (frac (num b) (den b)))) /\
  (~ order_fits a b -> rat_order a b = Dies).
Proof. exact rat_order_spec. Qed.
Print Assumptions C06_order.
Example C06_order_ex : rat_order (mk_rat 1 3) (mk_rat 1 2) = Ok Lt /\ rat_order (mk_rat (-1) 3) (mk_rat (-1) 2) = Ok Gt
  /\ rat_order (mk_rat 5 7) (mk_rat 5 7) = Ok Eq.
Proof. repeat split; vm_compute; reflexivity. Qed.

(** Two valid rational constants whose comparison terminates the process. *)
Theorem C06_order_total_refuted : exists a b,
  canonical (num a) (den a) /\ canonical (num b) (den b) /\ rat_order a b = Dies.
Proof.
  exists (mk_rat 9223372036854775807 2), (mk_rat 1 3).
  repeat split; vm_compute; discriminate || reflexivity.
Qed.
Print Assumptions C06_order_total_refuted.

(** C08.  No canonical input overflows. *)
Theorem C08_mod_pi : forall r, canonical (num r) (den r) ->
  exists r', mod_pi_rational r = Ok r' /\ canonical (num r') (den r') /\
    - den r' < num r' <= den r' /\
    exists k, Qeq (frac (num r) (den r)) (frac (num r') (den r') + inject_Z (2 * k)).
Proof. exact mod_pi_rational_spec. Qed.
Print Assumptions C08_mod_pi.
Example C08_mod_pi_ex : mod_pi_rational (mk_rat (-3) 1) = Ok (mk_rat 1 1)
  /\ mod_pi_rational (mk_rat 7 2) = Ok (mk_rat (-1) 2) /\ mod_pi_rational (mk_rat (-7) 4) = Ok (mk_rat 1 4)
  /\ mod_pi_rational (mk_rat INT64_MIN 1) = Ok (mk_rat 0 1).
Proof. repeat split; vm_compute; reflexivity. Qed.
