From Coq Require Import ZArith Bool Lia ZifyBool Znumtheory.
From Verif Require Import Outcome CheckedIntModel CheckedIntSpec.
Open Scope Z_scope.
Open Scope outcome_scope.
Ltac Zify.zify_post_hook ::= Z.div_mod_to_equations.

Ltac unfold_range := unfold in_i64, in_i64b, INT64_MIN, INT64_MAX in *.

Lemma in_i64b_spec z : in_i64b z = true <-> in_i64 z.
Proof. unfold_range; lia. Qed.

Lemma mach_ok z : in_i64 z -> mach z = Ok z.
Proof. intros H; unfold mach; apply in_i64b_spec in H; now rewrite H. Qed.

Lemma quot_trunc a b : b <> 0 -> is_trunc_divmod a b (Z.quot a b) (Z.rem a b).
Proof.
  intros Hb; unfold is_trunc_divmod; split; [apply Z.quot_rem'|split].
  - pose proof (Z.rem_bound_abs a b Hb); lia.
  - destruct (Z.eq_dec (Z.rem a b) 0) as [|Hne]; [now left|right].
    apply Z.rem_sign_nz; assumption.
Qed.

Lemma quot_in_range a b : in_i64 a -> b <> 0 -> ~ (b = -1 /\ a = INT64_MIN) -> in_i64 (Z.quot a b).
Proof.
  intros Ha Hb Hn.
  pose proof (quot_trunc a b Hb) as (He & Hr & Hs).
  unfold_range.
  assert (Habs : Z.abs (Z.quot a b) <= Z.abs a).
  { rewrite Z.quot_abs_l || idtac.
    destruct (Z.eq_dec (Z.abs b) 1) as [E|E].
    - assert (b = 1 \/ b = -1) as [->| ->] by lia.
      + rewrite Z.quot_1_r; lia.
      + replace (-1) with (Z.opp 1) by lia. rewrite Z.quot_opp_r, Z.quot_1_r by lia; lia.
    - pose proof (Z.quot_abs a b Hb) as Q. rewrite <- Q.
      apply Z.quot_le_upper_bound; nia. }
  destruct (Z.eq_dec (Z.quot a b) 9223372036854775808) as [E|E]; [|lia].
  exfalso. rewrite E in He. assert (Z.abs a = 9223372036854775808) by lia.
  assert (a = -9223372036854775808) by lia. subst a.
  assert (b = -1) by nia. tauto.
Qed.

Lemma mach_div_ok a b : in_i64 a -> b <> 0 -> ~ (b = -1 /\ a = INT64_MIN) ->
  mach_div a b = Ok (Z.quot a b).
Proof.
  intros Ha Hb Hn; unfold mach_div.
  destruct (Z.eqb_spec b 0); [lia|]. apply mach_ok, quot_in_range; assumption.
Qed.

Lemma ck_neg_spec v : in_i64 v -> exact_or_throw True (- v) (ck_neg v).
Proof.
  intros Hv; split; intros H; unfold ck_neg, mach_neg, mach; unfold_range;
  destruct (v =? _) eqn:E; try reflexivity; try lia;
  destruct ((_ <=? - v) && _) eqn:E2; try reflexivity; try lia.
Qed.

Lemma mul_pos_bounds a b : 0 < b ->
  (in_i64 (a * b) <-> Z.quot INT64_MIN b <= a <= Z.quot INT64_MAX b).
Proof.
  intros Hb.
  pose proof (quot_trunc INT64_MIN b ltac:(lia)) as (H1 & H2 & H3).
  pose proof (quot_trunc INT64_MAX b ltac:(lia)) as (H4 & H5 & H6).
  set (q1 := Z.quot INT64_MIN b) in *. set (q2 := Z.quot INT64_MAX b) in *.
  set (r1 := Z.rem INT64_MIN b) in *. set (r2 := Z.rem INT64_MAX b) in *.
  clearbody q1 q2 r1 r2.
  unfold_range. change (Z.sgn (-9223372036854775808)) with (-1) in H3.
  change (Z.sgn 9223372036854775807) with 1 in H6.
  assert (-b < r1 <= 0) by lia. assert (0 <= r2 < b) by lia.
  split; intros; nia.
Qed.

Lemma mul_neg_bounds a b : b < -1 ->
  (in_i64 (a * b) <-> Z.quot INT64_MAX b <= a <= Z.quot INT64_MIN b).
Proof.
  intros Hb.
  pose proof (quot_trunc INT64_MIN b ltac:(lia)) as (H1 & H2 & H3).
  pose proof (quot_trunc INT64_MAX b ltac:(lia)) as (H4 & H5 & H6).
  set (q1 := Z.quot INT64_MIN b) in *. set (q2 := Z.quot INT64_MAX b) in *.
  set (r1 := Z.rem INT64_MIN b) in *. set (r2 := Z.rem INT64_MAX b) in *.
  clearbody q1 q2 r1 r2.
  unfold_range. change (Z.sgn (-9223372036854775808)) with (-1) in H3.
  change (Z.sgn 9223372036854775807) with 1 in H6.
  assert (b < r1 <= 0) by lia. assert (0 <= r2 < -b) by lia.
  split; intros; nia.
Qed.

Lemma in_i64_MAX : in_i64 INT64_MAX. Proof. unfold_range; lia. Qed.
Lemma in_i64_MIN : in_i64 INT64_MIN. Proof. unfold_range; lia. Qed.

Lemma ck_mul_overflows_spec a b : in_i64 a -> in_i64 b ->
  exists o, ck_mul_overflows a b = Ok o /\ (o = false <-> in_i64 (a * b)).
Proof.
  intros Ha Hb. unfold ck_mul_overflows.
  destruct (b >? 0) eqn:E1.
  - pose proof (mul_pos_bounds a b ltac:(lia)) as HB.
    rewrite (mach_div_ok INT64_MAX b in_i64_MAX) by (unfold_range; lia). cbn [bind].
    destruct (a >? Z.quot INT64_MAX b) eqn:E2; cbn [bind].
    + exists true; split; [reflexivity|]; rewrite HB; split; intros; try congruence; lia.
    + rewrite (mach_div_ok INT64_MIN b in_i64_MIN) by lia. cbn [bind].
      destruct (a <? Z.quot INT64_MIN b) eqn:E3; cbn [bind].
      * exists true; split; [reflexivity|]; rewrite HB; split; intros; try congruence; lia.
      * destruct ((b =? -1) && (a =? INT64_MIN)) eqn:E4; [lia|].
        destruct (b <? -1) eqn:E5; [lia|].
        exists false; split; [reflexivity|]; rewrite HB; split; intros; try congruence; lia.
  - cbn [bind].
    destruct ((b =? -1) && (a =? INT64_MIN)) eqn:E2.
    + exists true; split; [reflexivity|].
      split; [congruence|]. unfold_range; intros; nia.
    + destruct (b <? -1) eqn:E3.
      * pose proof (mul_neg_bounds a b ltac:(lia)) as HB.
        rewrite (mach_div_ok INT64_MAX b in_i64_MAX) by (unfold_range; lia). cbn [bind].
        destruct (a <? Z.quot INT64_MAX b) eqn:E4.
        -- exists true; split; [reflexivity|]; rewrite HB; split; intros; try congruence; lia.
        -- rewrite (mach_div_ok INT64_MIN b in_i64_MIN) by lia. cbn [bind].
           eexists; split; [reflexivity|]; rewrite HB; lia.
      * exists false; split; [reflexivity|]; split; [|reflexivity]; intros _.
        assert (b = 0 \/ b = -1) as [-> | ->] by lia; unfold_range; lia.
Qed.

Lemma ck_mul_spec a b : in_i64 a -> in_i64 b -> exact_or_throw True (a * b) (ck_mul a b).
Proof.
  intros Ha Hb. destruct (ck_mul_overflows_spec a b Ha Hb) as (o & Ho & Hs).
  unfold ck_mul; rewrite Ho; cbn [bind]; split; intros H.
  - destruct H as [_ H]. pose proof (proj2 Hs H) as ->. apply mach_ok, H.
  - destruct o; [reflexivity|]. exfalso; apply H; split; [exact I|]; apply Hs; reflexivity.
Qed.

Lemma ck_div_spec a b : in_i64 a -> in_i64 b ->
  exact_or_throw (b <> 0) (Z.quot a b) (ck_div a b).
Proof.
  intros Ha Hb; unfold ck_div, exact_or_throw.
  destruct (Z.eqb_spec b 0) as [->|Hne].
  - split; [tauto|reflexivity].
  - destruct ((b =? -1) && (a =? INT64_MIN)) eqn:E.
    + split; [|reflexivity]. intros [_ H]. exfalso.
      assert (b = -1) by lia. assert (a = INT64_MIN) by lia. subst.
      revert H; unfold_range. change (Z.quot (-9223372036854775808) (-1)) with 9223372036854775808; lia.
    + rewrite mach_div_ok by (try assumption; lia). split; [reflexivity|].
      intros H; exfalso; apply H; split; [exact Hne|]; apply quot_in_range; try assumption; lia.
Qed.

Lemma ck_rem_spec a b : in_i64 a -> in_i64 b ->
  (b <> 0 /\ in_i64 (Z.quot a b) -> ck_rem a b = Ok (Z.rem a b)) /\
  (~ (b <> 0 /\ in_i64 (Z.quot a b)) -> ck_rem a b = Throws).
Proof.
  intros Ha Hb; unfold ck_rem, mach_rem.
  destruct (Z.eqb_spec b 0) as [->|Hne].
  - split; [tauto|reflexivity].
  - destruct ((b =? -1) && (a =? INT64_MIN)) eqn:E.
    + split; [|reflexivity]. intros [_ H]. exfalso.
      assert (b = -1) by lia. assert (a = INT64_MIN) by lia. subst.
      revert H; unfold_range. change (Z.quot (-9223372036854775808) (-1)) with 9223372036854775808; lia.
    + assert (HQ : in_i64 (Z.quot a b)) by (apply quot_in_range; try assumption; lia).
      pose proof (proj2 (in_i64b_spec _) HQ) as ->. split; [reflexivity|tauto].
Qed.

Lemma ck_add_spec a b : in_i64 a -> in_i64 b -> exact_or_throw True (a + b) (ck_add a b).
Proof.
  intros Ha Hb; unfold ck_add, exact_or_throw, mach_add, mach_sub.
  destruct (b >? 0) eqn:E1.
  - rewrite (mach_ok (INT64_MAX - b)) by (unfold_range; lia). cbn [bind].
    destruct (a >? INT64_MAX - b) eqn:E2.
    + split; [unfold_range; lia | reflexivity].
    + destruct (b <? 0) eqn:E3; [lia|]. cbn [bind].
      rewrite mach_ok by (unfold_range; lia). split; [reflexivity|]. unfold_range; lia.
  - cbn [bind]. destruct (b <? 0) eqn:E3.
    + rewrite (mach_ok (INT64_MIN - b)) by (unfold_range; lia). cbn [bind].
      destruct (a <? INT64_MIN - b) eqn:E2.
      * split; [unfold_range; lia | reflexivity].
      * rewrite mach_ok by (unfold_range; lia). split; [reflexivity|]. unfold_range; lia.
    + cbn [bind]. rewrite mach_ok by (unfold_range; lia). split; [reflexivity|]. unfold_range; lia.
Qed.

Lemma ck_sub_spec a b : in_i64 a -> in_i64 b -> exact_or_throw True (a - b) (ck_sub a b).
Proof.
  intros Ha Hb; unfold ck_sub, exact_or_throw, mach_add, mach_sub.
  destruct (b >? 0) eqn:E1.
  - rewrite (mach_ok (INT64_MIN + b)) by (unfold_range; lia). cbn [bind].
    destruct (a <? INT64_MIN + b) eqn:E2.
    + split; [unfold_range; lia | reflexivity].
    + destruct (b <? 0) eqn:E3; [lia|]. cbn [bind].
      rewrite mach_ok by (unfold_range; lia). split; [reflexivity|]. unfold_range; lia.
  - cbn [bind]. destruct (b <? 0) eqn:E3.
    + rewrite (mach_ok (INT64_MAX + b)) by (unfold_range; lia). cbn [bind].
      destruct (a >? INT64_MAX + b) eqn:E2.
      * split; [unfold_range; lia | reflexivity].
      * rewrite mach_ok by (unfold_range; lia). split; [reflexivity|]. unfold_range; lia.
    + cbn [bind]. rewrite mach_ok by (unfold_range; lia). split; [reflexivity|]. unfold_range; lia.
Qed.

Lemma ck_abs_spec v : in_i64 v -> exact_or_throw True (Z.abs v) (ck_abs v).
Proof.
  intros Hv; unfold ck_abs. destruct (v <? 0) eqn:E.
  - replace (Z.abs v) with (- v) by lia. apply ck_neg_spec, Hv.
  - split; [intros _; f_equal; lia|]. unfold_range; lia.
Qed.

Lemma is_gcd_Zgcd a b : is_gcd a b (Z.gcd a b).
Proof.
  unfold is_gcd; repeat split.
  - apply Z.gcd_nonneg.
  - apply Z.gcd_divide_l.
  - apply Z.gcd_divide_r.
  - intros; now apply Z.gcd_greatest.
Qed.

Lemma ck_gcd_spec a b : in_i64 a -> in_i64 b ->
  (a <> INT64_MIN /\ b <> INT64_MIN -> exists g, ck_gcd a b = Ok g /\ is_gcd a b g) /\
  (a = INT64_MIN \/ b = INT64_MIN -> ck_gcd a b = Throws).
Proof.
  intros Ha Hb; unfold ck_gcd.
  destruct (ck_abs_spec a Ha) as [Ha1 Ha2]. destruct (ck_abs_spec b Hb) as [Hb1 Hb2].
  split.
  - intros [HA HB]. rewrite Ha1, Hb1 by (unfold_range; lia). cbn [bind].
    unfold std_gcd.
    destruct ((Z.abs a =? INT64_MIN) || (Z.abs b =? INT64_MIN)) eqn:E; [unfold_range; lia|].
    eexists; split; [reflexivity|]. rewrite Z.gcd_abs_l, Z.gcd_abs_r. apply is_gcd_Zgcd.
  - intros H. destruct (Z.eq_dec a INT64_MIN) as [->|HA].
    + rewrite Ha2 by (unfold_range; lia). reflexivity.
    + destruct H as [|HB]; [contradiction|]. subst b.
      rewrite Ha1 by (unfold_range; lia). cbn [bind]. rewrite Hb2 by (unfold_range; lia). reflexivity.
Qed.

Lemma ck_is_even_spec v : ck_is_even v = true <-> exists k, v = 2 * k.
Proof.
  unfold ck_is_even. rewrite Z.bit0_odd, negb_true_iff, <- Z.negb_even, negb_false_iff.
  rewrite Z.even_spec. reflexivity.
Qed.
