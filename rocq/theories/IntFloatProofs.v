From Coq Require Import ZArith Reals Lia Lra.
From Flocq Require Import Core IEEE754.BinarySingleNaN Plus_error.
From Verif Require Import Outcome CheckedIntProofs IntFloatModel IntFloatSpec.
Open Scope Z_scope.

Local Notation fexp := (SpecFloat.fexp 53 1024).
Local Notation fmt := (generic_format radix2 fexp).
Local Notation rnd := (round radix2 fexp (round_mode mode_NE)).

#[local] Instance vexp : Valid_exp fexp.
Proof. apply fexp_correct. reflexivity. Qed.

Lemma fmt_B2R (f : f64) : fmt (B2R f).
Proof. apply generic_format_B2R. Qed.

(** Conversion of a representable integer is exact. *)
Lemma f64_of_Z_exact z : fmt (IZR z) -> (Rabs (IZR z) < bpow radix2 1024)%R ->
  B2R (f64_of_Z z) = IZR z /\ is_finite (f64_of_Z z) = true.
Proof.
  intros Hf Hb. unfold f64_of_Z.
  generalize (binary_normalize_correct 53 1024 _ _ mode_NE z 0 false). cbv zeta.
  replace (F2R (Float radix2 z 0)) with (IZR z) by (unfold F2R; cbn; ring).
  rewrite round_generic by (try typeclasses eauto; exact Hf).
  rewrite Rlt_bool_true by exact Hb. tauto.
Qed.

Lemma fmt_small z : Z.abs z <= 2 ^ 53 -> fmt (IZR z).
Proof.
  intros Hz. apply generic_format_FLT.
  destruct (Z.eq_dec (Z.abs z) (2 ^ 53)) as [E|E].
  - exists (Float radix2 (Z.sgn z * 2 ^ 52) 1).
    + unfold F2R; cbn [Fnum Fexp]. change (bpow radix2 1) with 2%R.
      rewrite <- mult_IZR. f_equal. lia.
    + cbn [Fnum]. change (radix2 ^ 53) with (2 ^ 53). lia.
    + cbn. unfold SpecFloat.emin. lia.
  - exists (Float radix2 z 0).
    + unfold F2R; cbn. ring.
    + cbn [Fnum]. change (radix2 ^ 53) with (2 ^ 53). lia.
    + cbn. unfold SpecFloat.emin. lia.
Qed.

Lemma bpow_IZR e : 0 <= e -> bpow radix2 e = IZR (2 ^ e).
Proof. intros H. symmetry. exact (IZR_Zpower radix2 e H). Qed.

Lemma small_lt_emax z : Z.abs z <= 2 ^ 64 -> (Rabs (IZR z) < bpow radix2 1024)%R.
Proof.
  intros Hz. apply Rle_lt_trans with (bpow radix2 64).
  - rewrite bpow_IZR by lia. rewrite <- abs_IZR. now apply IZR_le.
  - apply bpow_lt. lia.
Qed.

Lemma zero_exact : B2R (f64_of_Z 0) = 0%R /\ is_finite (f64_of_Z 0) = true.
Proof. apply (f64_of_Z_exact 0); [apply fmt_small; lia|apply small_lt_emax; lia]. Qed.
Lemma m1_exact : B2R (f64_of_Z (-1)) = (-1)%R /\ is_finite (f64_of_Z (-1)) = true.
Proof. apply (f64_of_Z_exact (-1)); [apply fmt_small; lia|apply small_lt_emax; lia]. Qed.

Lemma fmt_bpow e : 0 <= e <= 100 -> fmt (bpow radix2 e).
Proof.
  intros He. apply generic_format_bpow. unfold SpecFloat.fexp, SpecFloat.emin. lia.
Qed.

Lemma imin_exact : B2R I_min_as_float = IZR (- 2 ^ 63) /\ is_finite I_min_as_float = true.
Proof.
  unfold I_min_as_float. change INT64_MIN with (- 2 ^ 63). apply f64_of_Z_exact.
  - rewrite opp_IZR. apply generic_format_opp. rewrite <- bpow_IZR by lia. apply fmt_bpow. lia.
  - apply small_lt_emax. lia.
Qed.

Lemma imax_exact : B2R I_max_as_float_plus_1 = IZR (2 ^ 63) /\ is_finite I_max_as_float_plus_1 = true.
Proof.
  unfold I_max_as_float_plus_1, f64_mul. change (Z.quot INT64_MAX 2 + 1) with (2 ^ 62).
  destruct (f64_of_Z_exact (2 ^ 62)) as [E1 F1].
  { rewrite <- bpow_IZR by lia. apply fmt_bpow; lia. }
  { apply small_lt_emax; lia. }
  destruct (f64_of_Z_exact 2) as [E2 F2]; [apply fmt_small; lia|apply small_lt_emax; lia|].
  generalize (Bmult_correct 53 1024 _ _ mode_NE (f64_of_Z (2 ^ 62)) (f64_of_Z 2)).
  rewrite E1, E2, F1, F2. rewrite <- mult_IZR. change (2 ^ 62 * 2) with (2 ^ 63).
  rewrite round_generic; [|typeclasses eauto|rewrite <- bpow_IZR by lia; apply fmt_bpow; lia].
  rewrite Rlt_bool_true by (apply small_lt_emax; lia). cbn [andb]. tauto.
Qed.

(** A difference with bounded magnitude is correctly rounded. *)
Lemma sub_exact (a b : f64) : is_finite a = true -> is_finite b = true ->
  (Rabs (rnd (B2R a - B2R b)) < bpow radix2 1024)%R ->
  B2R (f64_sub a b) = rnd (B2R a - B2R b) /\ is_finite (f64_sub a b) = true.
Proof.
  intros Ha Hb H. unfold f64_sub. generalize (Bminus_correct 53 1024 _ _ mode_NE a b Ha Hb).
  rewrite Rlt_bool_true by exact H. tauto.
Qed.

Lemma rnd_le x y : (x <= y)%R -> (rnd x <= rnd y)%R.
Proof. apply round_le; typeclasses eauto. Qed.
Lemma rnd_id x : fmt x -> rnd x = x.
Proof. apply round_generic; typeclasses eauto. Qed.

(** Doubles below 2^63 are at most 2^63 - 1 (indeed 2^63 - 1024). *)
Lemma below_2_63 x : fmt x -> (x < IZR (2 ^ 63))%R -> (x <= IZR (2 ^ 63 - 1024))%R.
Proof.
  intros Hx Hlt. rewrite <- bpow_IZR in Hlt by lia.
  apply (pred_ge_gt radix2 fexp) in Hlt; [|exact Hx|apply fmt_bpow; lia].
  rewrite pred_bpow in Hlt. rewrite minus_IZR. rewrite bpow_IZR in Hlt by lia.
  change (fexp 63) with 10 in Hlt. rewrite bpow_IZR in Hlt by lia. exact Hlt.
Qed.

Lemma fmt_trunc x : fmt x -> fmt (IZR (Ztrunc x)).
Proof.
  intros Hx. rewrite <- (round_FIX_IZR Ztrunc x). apply generic_round_generic; try typeclasses eauto. exact Hx.
Qed.

Lemma Btrunc_Ztrunc (f : f64) : Btrunc f = Ztrunc (B2R f).
Proof.
  apply eq_IZR. rewrite Btrunc_correct by reflexivity. apply round_FIX_IZR.
Qed.

Lemma trunc_bounds x : (0 <= x -> IZR (Ztrunc x) <= x < IZR (Ztrunc x) + 1)%R /\
  (x <= 0 -> IZR (Ztrunc x) - 1 < x <= IZR (Ztrunc x))%R.
Proof.
  split; intros H.
  - rewrite Ztrunc_floor by exact H. split; [apply Zfloor_lb|apply Zfloor_ub].
  - rewrite Ztrunc_ceil by exact H. pose proof (Zceil_lb x); pose proof (Zceil_ub x); lra.
Qed.

Lemma Zlt_of_IZR a b : (IZR a < IZR b)%R -> a < b. Proof. apply lt_IZR. Qed.

Theorem compare_int_float_spec i f : in_i64 i ->
  exists c, compare_int_float i f = Ok c /\ exact_order i f c.
Proof.
  intros Hi. destruct (is_finite f) eqn:Hfin.
  2:{ unfold compare_int_float. destruct f as [s|[]| |s m e B]; try discriminate Hfin; cbn [is_nan is_finite negb].
      - eexists; split; [reflexivity|reflexivity].
      - eexists; split; [reflexivity|reflexivity].
      - eexists; split; [reflexivity|reflexivity]. }
  assert (Hspec : forall c, ((c = Some Lt /\ (IZR i < B2R f)%R) \/ (c = Some Eq /\ IZR i = B2R f) \/ (c = Some Gt /\ (B2R f < IZR i)%R)) ->
    exact_order i f c).
  { intros c H. destruct f as [s|[]| |s m e B]; try discriminate Hfin; exact H. }
  assert (Hnan : is_nan f = false) by (destruct f; try discriminate; reflexivity).
  assert (Hir : (IZR (- 2 ^ 63) <= IZR i <= IZR (2 ^ 63 - 1))%R).
  { unfold in_i64, INT64_MIN, INT64_MAX in Hi. split; apply IZR_le; lia. }
  unfold compare_int_float. rewrite Hnan, Hfin. cbn [negb].
  destruct imin_exact as [Em Fm]. destruct imax_exact as [Ex Fx].
  destruct zero_exact as [E0 F0]. destruct m1_exact as [E1 F1].
  pose proof (fmt_B2R f) as Hfmt.
  rewrite Bleb_correct by assumption. rewrite Em.
  destruct (Rle_bool_spec (IZR (- 2 ^ 63)) (B2R f)) as [Hlo|Hlo].
  2:{ eexists; split; [reflexivity|]. apply Hspec. right; right. split; [reflexivity|lra]. }
  set (x := B2R f) in *.
  destruct (Rlt_or_le x (IZR (2 ^ 63))) as [Hhi|Hhi].
  - (* in range *)
    pose proof (below_2_63 x Hfmt Hhi) as Hhi'.
    assert (Hr : (rnd (x - IZR (2 ^ 63)) <= IZR (-1024))%R).
    { rewrite <- (rnd_id (IZR (-1024))) by (apply fmt_small; lia). apply rnd_le.
      rewrite minus_IZR in Hhi'. lra. }
    assert (Hrl : (IZR (- 2 ^ 64) <= rnd (x - IZR (2 ^ 63)))%R).
    { rewrite <- (rnd_id (IZR (- 2 ^ 64))).
      - apply rnd_le. change (- 2 ^ 64) with (- 2 ^ 63 - 2 ^ 63). rewrite (minus_IZR (- 2 ^ 63)). lra.
      - rewrite opp_IZR. apply generic_format_opp. rewrite <- bpow_IZR by lia. apply fmt_bpow. lia. }
    destruct (sub_exact f I_max_as_float_plus_1 Hfin Fx) as [Es Fs].
    { rewrite Ex. fold x. apply Rle_lt_trans with (IZR (2 ^ 64)).
      - apply Rabs_le. split; [rewrite <- opp_IZR; exact Hrl|].
        apply Rle_trans with (1 := Hr). apply IZR_le; lia.
      - rewrite <- bpow_IZR by lia. apply bpow_lt. lia. }
    rewrite Bleb_correct by assumption. rewrite Es, Ex, E1. fold x.
    rewrite Rle_bool_true.
    2:{ apply Rle_trans with (1 := Hr). apply IZR_le; lia. }
    unfold i64_of_f64. rewrite Hfin, Btrunc_Ztrunc. fold x.
    destruct (trunc_bounds x) as [Tp Tn].
    set (t := Ztrunc x) in *.
    assert (Ht : in_i64 t).
    { unfold in_i64, INT64_MIN, INT64_MAX. destruct (Rle_or_lt 0 x) as [H|H].
      - specialize (Tp H). split.
        + assert (-1 < t); [|lia]. apply lt_IZR. change (IZR (-1)) with (-1)%R. lra.
        + assert (t < 2 ^ 63); [|lia]. apply lt_IZR. lra.
      - specialize (Tn (Rlt_le _ _ H)). split.
        + assert (- 2 ^ 63 <= t); [|lia]. apply le_IZR. lra.
        + assert (t < 1); [|lia]. apply lt_IZR. lra. }
    rewrite mach_ok by exact Ht. cbn [bind].
    destruct (Z.ltb_spec t i) as [H1|H1].
    { eexists; split; [reflexivity|]. apply Hspec. right; right. split; [reflexivity|].
      assert (H1' : (IZR t + 1 <= IZR i)%R) by (rewrite <- (plus_IZR t 1); apply IZR_le; lia).
      destruct (Rle_or_lt 0 x) as [H|H]; [specialize (Tp H); lra|].
      specialize (Tn (Rlt_le _ _ H)). lra. }
    destruct (Z.ltb_spec i t) as [H2|H2].
    { eexists; split; [reflexivity|]. apply Hspec. left. split; [reflexivity|].
      assert (H2' : (IZR i <= IZR t - 1)%R) by (rewrite <- (minus_IZR t 1); apply IZR_le; lia).
      destruct (Rle_or_lt 0 x) as [H|H]; [specialize (Tp H); lra|].
      specialize (Tn (Rlt_le _ _ H)). lra. }
    assert (i = t) as -> by lia.
    destruct (f64_of_Z_exact t) as [Et Ft].
    { apply fmt_trunc; exact Hfmt. }
    { apply small_lt_emax. unfold in_i64, INT64_MIN, INT64_MAX in Ht. lia. }
    assert (Habs : (-1 <= x - IZR t <= 1)%R).
    { destruct (Rle_or_lt 0 x) as [H|H]; [specialize (Tp H); lra|].
      specialize (Tn (Rlt_le _ _ H)). lra. }
    destruct (sub_exact f (f64_of_Z t) Hfin Ft) as [Ed Fd].
    { rewrite Et. fold x. apply Rle_lt_trans with (IZR 1).
      - apply Rabs_le. split.
        + change (- IZR 1)%R with (IZR (-1)); rewrite <- (rnd_id (IZR (-1))) by (apply fmt_small; lia). apply rnd_le.
          change (IZR (-1)) with (-1)%R. lra.
        + rewrite <- (rnd_id (IZR 1)) by (apply fmt_small; lia). apply rnd_le. lra.
      - change (IZR 1) with (bpow radix2 0). apply bpow_lt. lia. }
    rewrite Et in Ed. fold x in Ed.
    assert (Hnz : (x - IZR t <> 0 -> rnd (x - IZR t) <> 0)%R).
    { intros H. apply round_plus_neq_0; try typeclasses eauto; [exact Hfmt| |exact H].
      apply generic_format_opp. apply fmt_trunc; exact Hfmt. }
    assert (Hrz : rnd 0 = 0%R) by (apply round_0; typeclasses eauto).
    cbv zeta. rewrite !Bltb_correct by assumption. rewrite Ed, E0.
    destruct (Rlt_bool_spec (rnd (x - IZR t)) 0) as [L1|L1].
    { eexists; split; [reflexivity|]. apply Hspec. right; right. split; [reflexivity|].
      destruct (Rlt_or_le x (IZR t)) as [|Hc]; [assumption|exfalso].
      assert (rnd 0 <= rnd (x - IZR t))%R by (apply rnd_le; lra). lra. }
    destruct (Rlt_bool_spec 0 (rnd (x - IZR t))) as [L2|L2].
    { eexists; split; [reflexivity|]. apply Hspec. left. split; [reflexivity|].
      destruct (Rlt_or_le (IZR t) x) as [|Hc]; [assumption|exfalso].
      assert (rnd (x - IZR t) <= rnd 0)%R by (apply rnd_le; lra). lra. }
    eexists; split; [reflexivity|]. apply Hspec. right; left. split; [reflexivity|].
    destruct (Req_dec (x - IZR t) 0) as [Hz|Hz]; [lra|]. specialize (Hnz Hz). lra.
  - (* at or above 2^63 *)
    assert (Hd : Bleb (f64_sub f I_max_as_float_plus_1) (f64_of_Z (-1)) = false).
    { assert (Hge : (0 <= rnd (x - IZR (2 ^ 63)))%R).
      { assert (Hrz : rnd 0 = 0%R) by (apply round_0; typeclasses eauto).
        rewrite <- Hrz at 1. apply rnd_le. lra. }
      assert (Hle : (rnd (x - IZR (2 ^ 63)) <= x)%R).
      { rewrite <- (rnd_id x Hfmt) at 2. apply rnd_le.
        assert (0 <= IZR (2 ^ 63))%R by (apply IZR_le; lia). lra. }
      destruct (sub_exact f I_max_as_float_plus_1 Hfin Fx) as [Es Fs].
      { rewrite Ex. fold x. rewrite Rabs_pos_eq by exact Hge.
        apply Rle_lt_trans with (1 := Hle). apply Rle_lt_trans with (1 := Rle_abs x).
        apply abs_B2R_lt_emax. }
      rewrite Bleb_correct by assumption. rewrite Es, Ex, E1. fold x.
      apply Rle_bool_false. lra. }
    rewrite Hd. eexists; split; [reflexivity|]. apply Hspec. left. split; [reflexivity|].
    apply Rle_lt_trans with (IZR (2 ^ 63 - 1)); [apply Hir|].
    apply Rlt_le_trans with (2 := Hhi). apply IZR_lt. lia.
Qed.
