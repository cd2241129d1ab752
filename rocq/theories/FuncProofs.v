(** Soundness of the built-in functions, comparisons and conditionals. *)
From Coq Require Import String List ZArith QArith Qreals Reals Machin Bool Permutation Lra Lia.
From Flocq Require Import Core IEEE754.BinarySingleNaN.
From Verif Require Import Outcome CheckedIntModel CheckedIntSpec CheckedIntProofs RationalModel RationalSpec RationalProofs
  IntUtilsModel IntFloatModel IntFloatSpec IntFloatProofs ExprModel ExprSpec ValProofs ExprProofs NumProofs BuildModel BuildProofs PowProofs FuncModel.
Import ListNotations.
Open Scope R_scope.

(** ** Rational arithmetic *)
Lemma rat_sub_inv a b r : canon a -> canon b -> rat_sub a b = Ok r ->
  canon r /\ rat_val r = rat_val a - rat_val b.
Proof.
  intros Ha Hb E. destruct (canon_in a Ha) as (Na & Da & Pa), (canon_in b Hb) as (Nb & Db & Pb).
  unfold rat_sub in E. binv E. binv E. binv E. binv E.
  apply ck_mul_inv in E0; auto. destruct E0 as [-> F0].
  apply ck_mul_inv in E1; auto. destruct E1 as [-> F1].
  apply ck_sub_inv in E2; auto. destruct E2 as [-> F2].
  apply ck_mul_inv in E3; auto. destruct E3 as [-> F3].
  apply rat_make_inv in E; auto; [|nia]. destruct E as [Hc Hv]. split; auto. rewrite Hv.
  unfold rat_val. rewrite minus_IZR, !mult_IZR.
  assert (IZR (den a) <> 0) by now apply canon_den. assert (IZR (den b) <> 0) by now apply canon_den.
  field; auto.
Qed.

Lemma rat_cross a b : canon a -> canon b ->
  ((num a * den b < num b * den a)%Z <-> rat_val a < rat_val b).
Proof.
  intros (Pa & _) (Pb & _). unfold rat_val.
  assert (0 < IZR (den a)) by (apply (IZR_lt 0); lia). assert (0 < IZR (den b)) by (apply (IZR_lt 0); lia).
  split; intros Hx.
  - apply IZR_lt in Hx. rewrite !mult_IZR in Hx.
    apply Rmult_lt_reg_r with (IZR (den a)); auto. apply Rmult_lt_reg_r with (IZR (den b)); auto.
    field_simplify; try lra.
  - apply lt_IZR. rewrite !mult_IZR.
    apply Rmult_lt_compat_r with (r := IZR (den a)) in Hx; auto. apply Rmult_lt_compat_r with (r := IZR (den b)) in Hx; auto.
    field_simplify in Hx; lra.
Qed.

Lemma rat_lt_inv a b t : canon a -> canon b -> rat_lt a b = Ok t -> (t = true <-> rat_val a < rat_val b).
Proof.
  intros Ha Hb E. destruct (canon_in a Ha) as (Na & Da & Pa), (canon_in b Hb) as (Nb & Db & Pb).
  unfold rat_lt in E. binv E. binv E. injection E as <-. apply ck_mul_inv in E0; auto. destruct E0 as [-> F0].
  apply ck_mul_inv in E1; auto. destruct E1 as [-> F1]. rewrite <- rat_cross by auto. apply Z.ltb_lt.
Qed.
Lemma rat_gt_inv a b t : canon a -> canon b -> rat_gt a b = Ok t -> (t = true <-> rat_val b < rat_val a).
Proof.
  intros Ha Hb E. destruct (canon_in a Ha) as (Na & Da & Pa), (canon_in b Hb) as (Nb & Db & Pb).
  unfold rat_gt in E. binv E. binv E. injection E as <-. apply ck_mul_inv in E0; auto. destruct E0 as [-> F0].
  apply ck_mul_inv in E1; auto. destruct E1 as [-> F1]. rewrite <- rat_cross by auto. rewrite Z.gtb_ltb. apply Z.ltb_lt.
Qed.

Lemma make_1_1 : rat_make 1 1 = Ok (mk_rat 1 1). Proof. reflexivity. Qed.
Lemma make_1_2 : rat_make 1 2 = Ok (mk_rat 1 2). Proof. reflexivity. Qed.
Lemma make_m1_2 : rat_make (-1) 2 = Ok (mk_rat (-1) 2). Proof. reflexivity. Qed.
Lemma canon_1_2 : canon (mk_rat 1 2).
Proof. unfold canon, canonical; cbn [num den]. repeat split; unfold_range; lia. Qed.
Lemma canon_m1_2 : canon (mk_rat (-1) 2).
Proof. unfold canon, canonical; cbn [num den]. repeat split; unfold_range; lia. Qed.

(** Two canonical rationals of the same value are equal. *)
Lemma canon_val_eq a b : canon a -> canon b -> rat_val a = rat_val b -> a = b.
Proof.
  intros Ha Hb H. pose proof (proj2 (rat_cross a b Ha Hb)) as H1. pose proof (proj2 (rat_cross b a Hb Ha)) as H2.
  assert (E : (num a * den b = num b * den a)%Z).
  { destruct (Z.lt_trichotomy (num a * den b) (num b * den a)) as [L|[L|L]]; auto.
    - apply rat_cross in L; auto. lra.
    - apply (rat_cross b a) in L; auto. lra. }
  destruct Ha as (Pa & Ga & _), Hb as (Pb & Gb & _).
  assert (D1 : (den a | den b)%Z).
  { apply Z.gauss with (num a); [exists (num b); lia|]. now rewrite Z.gcd_comm. }
  assert (D2 : (den b | den a)%Z).
  { apply Z.gauss with (num b); [exists (num a); lia|]. now rewrite Z.gcd_comm. }
  assert (Ed : den a = den b) by (apply Z.divide_antisym_nonneg; auto; lia).
  destruct a as [na da], b as [nb db]; cbn in *. subst. f_equal. nia.
Qed.

(** ** Trigonometry *)
Lemma cos_period_Z x k : cos (x + 2 * IZR k * PI) = cos x.
Proof.
  destruct k as [|p|p].
  - f_equal; ring.
  - rewrite <- (cos_period x (Pos.to_nat p)). f_equal. rewrite INR_IZR_INZ, positive_nat_Z. reflexivity.
  - rewrite <- (cos_period (x + 2 * IZR (Z.neg p) * PI) (Pos.to_nat p)). f_equal.
    rewrite INR_IZR_INZ, positive_nat_Z. change (Z.neg p) with (- Z.pos p)%Z. rewrite opp_IZR. ring.
Qed.
Lemma sin_period_Z x k : sin (x + 2 * IZR k * PI) = sin x.
Proof.
  destruct k as [|p|p].
  - f_equal; ring.
  - rewrite <- (sin_period x (Pos.to_nat p)). f_equal. rewrite INR_IZR_INZ, positive_nat_Z. reflexivity.
  - rewrite <- (sin_period (x + 2 * IZR (Z.neg p) * PI) (Pos.to_nat p)). f_equal.
    rewrite INR_IZR_INZ, positive_nat_Z. change (Z.neg p) with (- Z.pos p)%Z. rewrite opp_IZR. ring.
Qed.

Lemma cos_neg_half : cos (-1 / 2 * PI) = 0.
Proof. replace (-1 / 2 * PI) with (- (PI / 2)) by field. rewrite cos_neg. apply cos_PI2. Qed.
Lemma sin_neg_half : sin (-1 / 2 * PI) = -1.
Proof. replace (-1 / 2 * PI) with (- (PI / 2)) by field. rewrite sin_neg, sin_PI2. ring. Qed.
Lemma cos_half : cos (1 / 2 * PI) = 0.
Proof. replace (1 / 2 * PI) with (PI / 2) by field. apply cos_PI2. Qed.
Lemma sin_half : sin (1 / 2 * PI) = 1.
Proof. replace (1 / 2 * PI) with (PI / 2) by field. apply sin_PI2. Qed.

(** Inverse hyperbolic functions. *)
Lemma cosh_acosh x : 1 <= x -> cosh (ln (x + sqrt (x * x - 1))) = x.
Proof.
  intros H. assert (H1 : 0 <= x * x - 1) by nra. pose proof (sqrt_sqrt _ H1) as Hs. pose proof (sqrt_pos (x * x - 1)) as Hp.
  set (q := sqrt (x * x - 1)) in *. unfold cosh. rewrite exp_Ropp, !exp_ln by lra.
  field_simplify_eq; [|lra]. nra.
Qed.
Lemma sqrt_gt_abs x : 0 < x + sqrt (x * x + 1).
Proof.
  assert (H1 : 0 <= x * x + 1) by nra. pose proof (sqrt_sqrt _ H1) as Hs. pose proof (sqrt_pos (x * x + 1)) as Hp. nra.
Qed.
Lemma sinh_asinh x : sinh (ln (x + sqrt (x * x + 1))) = x.
Proof.
  assert (H1 : 0 <= x * x + 1) by nra. pose proof (sqrt_sqrt _ H1) as Hs. pose proof (sqrt_gt_abs x) as Hp.
  set (q := sqrt (x * x + 1)) in *. unfold sinh. rewrite exp_Ropp, !exp_ln by lra.
  field_simplify_eq; [|lra]. nra.
Qed.
Lemma tanh_atanh x : x * x < 1 -> tanh (/ 2 * ln ((1 + x) / (1 - x))) = x.
Proof.
  intros H. assert (H1 : -1 < x < 1) by nra. assert (H2 : 0 < (1 + x) / (1 - x)) by (apply Rdiv_lt_0_compat; lra).
  set (y := (1 + x) / (1 - x)) in *. assert (Hq : 0 < sqrt y) by now apply sqrt_lt_R0.
  assert (Hl : / 2 * ln y = ln (sqrt y)).
  { pose proof (sqrt_sqrt y (Rlt_le _ _ H2)) as Hs. rewrite <- Hs at 1. rewrite ln_mult by auto. field. }
  rewrite Hl. unfold tanh, sinh, cosh. rewrite exp_Ropp, !exp_ln by auto.
  pose proof (sqrt_sqrt y (Rlt_le _ _ H2)) as Hs. set (q := sqrt y) in *.
  assert (Hy : y * (1 - x) = 1 + x) by (unfold y; field; lra).
  assert (Hx : q * q * (1 - x) = 1 + x) by (rewrite Hs; auto).
  assert (q * q + 1 <> 0) by nra.
  field_simplify_eq; [|split; [lra|]].
  - nra.
  - intros E. apply H0. field_simplify_eq in E; lra.
Qed.

Lemma acos_m1 : acos (-1) = PI.
Proof. replace (-1) with (- (1)) by ring. rewrite acos_opp, acos_1. ring. Qed.
Lemma asin_m1 : asin (-1) = - (PI / 2).
Proof. replace (-1) with (- (1)) by ring. now rewrite asin_opp, asin_1. Qed.
Lemma atan_m1 : atan (-1) = - (PI / 4).
Proof. replace (-1) with (- (1)) by ring. now rewrite atan_opp, atan_1. Qed.

Lemma exp1_bounds : 2 < exp 1 < 3.
Proof.
  split; [pose proof (exp_ineq1 1 ltac:(lra)); lra|].
  assert (H : 5 / 6 < exp (- / 6)) by (pose proof (exp_ineq1 (- / 6) ltac:(lra)); lra).
  assert (E : exp 1 * exp (- / 6) ^ 6 = 1).
  { assert (H6 : exp (- / 6) ^ 6 = exp (-1)).
    { cbn [pow]. rewrite Rmult_1_r, <- !exp_plus. f_equal. field. }
    rewrite H6, <- exp_plus. replace (1 + -1) with 0 by ring. apply exp_0. }
  assert (P : (5 / 6) ^ 6 <= exp (- / 6) ^ 6) by (apply pow_incr; lra).
  pose proof (exp_pos 1). assert ((5/6)^6 > 1/3) by (cbn [pow]; lra). nra.
Qed.
Lemma PI_bounds : 3 < PI < 4.
Proof.
  pose proof (PI_ineq 3) as [H1 H2]. split.
  - unfold tg_alt, PI_tg in H1. cbn [sum_f_R0 Nat.mul Nat.add pow INR] in H1. lra.
  - pose proof (PI_ineq 1) as [_ H3]. unfold tg_alt, PI_tg in H3. cbn [sum_f_R0 Nat.mul Nat.add pow INR] in H3. lra.
Qed.

(** ** The doubles of the symbolic constants *)
Lemma symc_f64_finite c : is_finite (symc_f64 c) = true /\ is_nan (symc_f64 c) = false.
Proof. destruct c; vm_compute; auto. Qed.
Definition symc_val (c : symc) : R := match c with Euler => exp 1 | Pi => PI end.
Definition symc_floor (c : symc) : Z := match c with Euler => 2%Z | Pi => 3%Z end.

Lemma exact_order_finite i f c : is_finite f = true -> exact_order i f c ->
  (c = Some Lt /\ (IZR i < B2R f)%R) \/ (c = Some Eq /\ IZR i = B2R f) \/ (c = Some Gt /\ (B2R f < IZR i)%R).
Proof. destruct f; try discriminate; auto. Qed.

Lemma symc_f64_bounds c : IZR (symc_floor c) < B2R (symc_f64 c) < IZR (symc_floor c + 1).
Proof.
  destruct (symc_f64_finite c) as [Hf _].
  destruct (compare_int_float_spec (symc_floor c)) with (f := symc_f64 c) as (o & E & H); [destruct c; unfold_range; cbn; lia|].
  destruct (compare_int_float_spec (symc_floor c + 1)) with (f := symc_f64 c) as (o' & E' & H'); [destruct c; unfold_range; cbn; lia|].
  assert (o = Some Lt) by (destruct c; vm_compute in E; injection E as <-; reflexivity).
  assert (o' = Some Gt) by (destruct c; vm_compute in E'; injection E' as <-; reflexivity). subst.
  apply exact_order_finite in H; auto. apply exact_order_finite in H'; auto.
  destruct H as [[_ H]|[[? _]|[? _]]]; try discriminate. destruct H' as [[? _]|[[? _]|[_ H']]]; try discriminate. auto.
Qed.
Lemma symc_val_bounds c : IZR (symc_floor c) < symc_val c < IZR (symc_floor c + 1).
Proof. destruct c; cbn; [pose proof exp1_bounds|pose proof PI_bounds]; lra. Qed.

(** The double and the constant lie between the same integers. *)
Lemma symc_int c i : (IZR i < symc_val c <-> IZR i < B2R (symc_f64 c)) /\ (symc_val c < IZR i <-> B2R (symc_f64 c) < IZR i).
Proof.
  pose proof (symc_f64_bounds c) as [A B]. pose proof (symc_val_bounds c) as [C D].
  destruct (Z.le_gt_cases i (symc_floor c)) as [L|L].
  - apply IZR_le in L. split; split; lra.
  - assert (symc_floor c + 1 <= i)%Z by lia. apply IZR_le in H. split; split; lra.
Qed.

(** ** Values *)
Lemma vprod_fin l x : In Fin l -> vprod l = Rv x -> x = 0.
Proof.
  revert x. induction l as [|a l IH]; intros x Hin Hv; [destruct Hin|]. rewrite vprod_cons in Hv. destruct Hin as [->|H].
  - destruct (vprod l) as [y| |]; cbn in Hv; try discriminate. destruct (Req_EM_T y 0); [congruence|discriminate].
  - destruct a as [y| |], (vprod l) as [z| |]; cbn in Hv; try discriminate.
    + injection Hv as <-. rewrite (IH z) by auto. ring.
    + destruct (Req_EM_T y 0); [congruence|discriminate].
    + destruct (Req_EM_T z 0); [congruence|discriminate].
Qed.

Lemma mod_pi_val q m : canon q -> mod_pi_rational q = Ok m -> canon m /\ (- den m < num m <= den m)%Z /\
  exists k, rat_val q = rat_val m + 2 * IZR k.
Proof.
  intros Hq H. destruct (mod_pi_rational_spec q Hq) as (m' & E & Hc & Hb & k & Hk). rewrite H in E. injection E as <-.
  split; auto. split; auto. exists k. destruct (canon_in q Hq) as (_ & _ & Pq), (canon_in m Hc) as (_ & _ & Pm).
  rewrite !ratQ_val by auto. apply Qeq_eqR in Hk. rewrite Hk, Q2R_plus. f_equal.
  unfold Q2R, inject_Z; cbn [Qnum Qden]. rewrite mult_IZR. field.
Qed.

Lemma is_half_val q : is_half q = true -> q = mk_rat 1 2.
Proof. apply rat_eqb_eq. Qed.
Lemma is_neg_half_val q : is_neg_half q = true -> q = mk_rat (-1) 2.
Proof. apply rat_eqb_eq. Qed.
Lemma is_zero_rat q : rat_is_zero q = true -> rat_val q = 0.
Proof. intros H. apply Z.eqb_eq in H. unfold rat_val. rewrite H. unfold Rdiv; ring. Qed.
Lemma is_one_rat q : canon q -> rat_is_one q = true -> rat_val q = 1.
Proof. intros Hc H. apply Z.eqb_eq in H. unfold rat_val. rewrite H. apply Rinv_r. now apply canon_den. Qed.

Lemma tan_range_val q m : canon q -> convert_to_tan_range q = Ok m -> canon m /\
  (rat_val m = rat_val q \/ rat_val m = rat_val q - 1 \/ rat_val m = rat_val q + 1).
Proof.
  intros Hq H. unfold convert_to_tan_range in H. rewrite make_1_1, make_1_2, make_m1_2 in H. cbn [bind] in H.
  assert (H1 : rat_val (mk_rat 1 1) = 1) by (unfold rat_val; cbn; field).
  binv H. destruct x.
  - apply rat_sub_inv in H; auto using canon_1. destruct H as [Hc Hv]. split; auto. right; left. lra.
  - binv H. destruct x.
    + apply rat_add_inv in H; auto using canon_1. destruct H as [Hc Hv]. split; auto. right; right. lra.
    + injection H as <-. auto.
Qed.

Section Sound.
Variable I : impl.
Hypothesis HI : impl_ok I.
Variable s : env.
Hypothesis Henv : env_ok s.
Notation ev := (eval s).
Notation wf := (ExprSpec.wf s).
Notation sound := (sound s).
Variable n : nat.
Let Hr : spec_ops s (ops_n I n) := spec_ops_n I s HI Henv n.

Lemma e_neg_sound a v : wf a -> e_neg I n a = Ok v -> sound v (vmul (Rv (-1)) (ev a)).
Proof. intros Ha H. apply (s_mul2 s _ Hr) in H; auto. apply (wf_numbers s). Qed.
Lemma e_neg_Rv a v x : wf a -> e_neg I n a = Ok v -> ev a = Rv x -> wf v /\ ev v = Rv (- x).
Proof.
  intros Ha H Hx. destruct (e_neg_sound a v Ha H) as [W V]. split; auto. rewrite Hx in V. cbn in V. rewrite V. f_equal; ring.
Qed.
Lemma e_mul2_sound a b v : wf a -> wf b -> e_mul2 I n a b = Ok v -> sound v (vmul (ev a) (ev b)).
Proof. intros Ha Hb H. now apply (s_mul2 s _ Hr) in H. Qed.
Lemma e_pow_sound a b v : wf a -> wf b -> e_pow I n a b = Ok v -> sound v (vpow (ev a) (ev b)).
Proof. intros Ha Hb H. now apply (s_pow s _ Hr) in H. Qed.
Lemma e_div_int a z v : wf a -> in_i64 z -> (0 < z)%Z -> e_div I n a (EInt z) = Ok v -> sound v (vmul (ev a) (Rv (/ IZR z))).
Proof.
  intros Ha Hz Pz H. unfold e_div in H. binv H. apply e_pow_sound in E; [|exact Hz|apply (wf_numbers s)].
  destruct E as [W V]. cbn [eval] in V.
  assert (0 < IZR z) by (apply (IZR_lt 0); lia).
  rewrite vpow_int in V by lra. cbn [refines powerRZ] in V. change (Pos.to_nat 1) with 1%nat in V. rewrite pow_1 in V.
  apply e_mul2_sound in H; auto. now rewrite V in H.
Qed.
Lemma e_div_Rv a z v x : wf a -> in_i64 z -> (0 < z)%Z -> e_div I n a (EInt z) = Ok v -> ev a = Rv x ->
  wf v /\ ev v = Rv (x / IZR z).
Proof. intros Ha Hz Pz H Hx. destruct (e_div_int a z v Ha Hz Pz H) as [W V]. rewrite Hx in V. split; auto. Qed.

Lemma pi_over_val d v : in_i64 d -> (0 < d)%Z -> pi_over I n d = Ok v -> wf v /\ ev v = Rv (PI / IZR d).
Proof. intros Hd Pd H. apply (e_div_Rv (ESym Pi) d v PI); auto. exact Logic.I. Qed.

Lemma i_inverse v : e_pow I n EImag (EInt (-1)) = Ok v -> wf v /\ ev v = Fin.
Proof.
  unfold e_pow. clear Hr. destruct n as [|[|m]]; [discriminate|discriminate|]. cbn [ops_n step_ops o_pow].
  intros H. unfold pow_body in H. cbn [o_simp step_ops] in H. unfold simp_body in H. cbn [pow_numerics bind] in H.
  cbn in H. apply bind_ok in H. destruct H as (x & E & H). apply bind_ok in E. destruct E as (y & E & E2).
  injection E2 as <-. injection H as <-.
  apply make_mul_spec with (s := s) in E; [|repeat split; cbn; auto; try lia; unfold_range; lia].
  destruct E as [W V]. split; auto. rewrite V. cbn. vdec; auto; lra.
Qed.

Lemma has_imag_val e x : has_imag e = true -> ev e = Rv x -> x = 0.
Proof.
  destruct e; try discriminate. intros H Hx. cbn in H. apply existsb_exists in H. destruct H as (a & Ha & Hi).
  destruct a; try discriminate. apply (vprod_fin (map ev l)); auto. change Fin with (ev EImag). now apply in_map.
Qed.

Lemma divide_imag_val e v : has_imag e = true -> wf e -> divide_imag I n e = Ok v ->
  wf v /\ (forall x, ev e = Rv x -> x = 0 /\ ev v = Rv 0).
Proof.
  intros Hi Hw H. destruct e; try discriminate Hi; cbn [divide_imag] in H.
  - injection H as <-. split; [apply (wf_numbers s)|]. discriminate.
  - unfold e_div in H. binv H. apply i_inverse in E. destruct E as [W V].
    apply e_mul2_sound in H; auto. destruct H as [W1 V1]. split; auto. intros y Hy.
    assert (y = 0) by (eapply has_imag_val; eauto). subst. split; auto. rewrite Hy, V in V1. cbn in V1.
    destruct (Req_EM_T 0 0); [auto|congruence].
Qed.

(** A result is sound as soon as it is right for real arguments. *)
Lemma sound_fn f e v : f <> Fatan2 -> wf v -> (forall x, ev e = Rv x -> refines (ev v) (vfun1 f x)) ->
  sound v (vfun f [ev e]).
Proof.
  intros Hf Hw H. split; auto. destruct (ev e) as [x| |]; destruct f; cbn; auto; try congruence; try (specialize (H x eq_refl); exact H).
Qed.

Lemma EFun_sound f e : f <> Fatan2 -> f <> Flog -> wf e -> sound (EFun f [e]) (vfun f [ev e]).
Proof. intros H1 H2 He. split; [cbn; destruct f; auto; congruence|]. cbn [eval map]. auto. Qed.

Lemma finish_sound f inv e v : f <> Fatan2 -> f <> Flog -> wf e ->
  (forall g h l, inv = Some g -> fn_name g = fn_name h -> e = EFun h l -> forall y l', l = y :: l' ->
     forall x, ev e = Rv x -> refines (ev y) (vfun1 f x)) ->
  finish I n f inv e = Ok v -> sound v (vfun f [ev e]).
Proof.
  intros H1 H2 He Hinv H. unfold finish in H. binv H. destruct x as [w|].
  - injection H as <-. apply (operate_on_float_spec I s _ Hr) in E; auto. destruct E as [W V].
    apply sound_fn; auto. intros x Hx. destruct V; congruence.
  - destruct (is_inf e || is_undefined e) eqn:Eu.
    + injection H as <-. apply sound_fn; auto; [exact Logic.I|]. destruct e; try discriminate Eu; discriminate.
    + destruct inv as [g|]; [|injection H as <-; now apply EFun_sound].
      destruct e; try (injection H as <-; now apply EFun_sound). destruct l as [|y l]; [injection H as <-; now apply EFun_sound|].
      destruct (String.eqb_spec (fn_name g) (fn_name f0)) as [En|En]; [|injection H as <-; now apply EFun_sound].
      injection H as <-. apply sound_fn; auto.
      * destruct He as [[Hy _] _]. exact Hy.
      * intros x Hx. eapply Hinv; eauto.
Qed.

Lemma pi_factor_val cm q e : as_coeff_and_mul I e = Ok cm -> wf e -> pi_factor cm = Some q ->
  canon q /\ ev e = Rv (rat_val q * PI).
Proof.
  intros H Hw Hq. destruct cm as [c m]. apply (as_coeff_and_mul_spec I s) in H; auto.
  destruct H as (Wc & Wm & V & _). specialize (V s). unfold pi_factor in Hq. cbn [fst snd] in Hq.
  destruct (is_pi m) eqn:Em; [|discriminate]. destruct m; try discriminate. destruct c0; try discriminate.
  rewrite V. destruct c; try discriminate; injection Hq as <-.
  - split; [now apply rat_of_int_canon|]. cbn. now rewrite rat_of_int_val.
  - split; [apply Wc|]. reflexivity.
Qed.

Lemma times_pi_val q v : canon q -> times_pi I n q = Ok v -> wf v /\ ev v = Rv (rat_val q * PI).
Proof.
  intros Hq H. unfold times_pi in H. binv H. apply of_rat_inv in E; auto. destruct E as (W & V & _).
  apply e_mul2_sound in H; [|apply W|exact Logic.I]. destruct H as [W1 V1]. rewrite V in V1. split; auto.
Qed.

Definition is_trig (f : fn) : bool :=
  match f with Fcos | Fsin | Ftan | Fcosh | Fsinh | Ftanh => true | _ => false end.

Lemma is_zero_val e : is_zero e = true -> e = EInt 0.
Proof. destruct e; try discriminate. intros H. apply Z.eqb_eq in H. now subst. Qed.
Lemma is_one_val' e : is_one e = true -> e = EInt 1.
Proof. destruct e; try discriminate. intros H. apply Z.eqb_eq in H. now subst. Qed.
Lemma is_negative_one_val e : is_negative_one e = true -> e = EInt (-1).
Proof. destruct e; try discriminate. intros H. apply Z.eqb_eq in H. now subst. Qed.

(** cos(-x) = cos(x), sin(-x) = -sin(x), ... *)
Lemma vfun1_even f x : f = Fcos \/ f = Fcosh \/ f = Fabs -> vfun1 f (- x) = vfun1 f x.
Proof.
  intros [->|[->| ->]]; cbn.
  - now rewrite cos_neg.
  - f_equal. unfold cosh. rewrite Ropp_involutive. f_equal. ring.
  - now rewrite Rabs_Ropp.
Qed.
Lemma tanh_opp x : tanh (- x) = - tanh x.
Proof.
  unfold tanh, sinh, cosh. rewrite Ropp_involutive. pose proof (exp_pos x). pose proof (exp_pos (- x)). field. lra.
Qed.
Lemma vfun1_odd f x : f = Fsin \/ f = Ftan \/ f = Fsinh \/ f = Ftanh \/ f = Fasin \/ f = Fatan ->
  vfun1 f (- x) = vmul (Rv (-1)) (vfun1 f x).
Proof.
  intros [->|[->|[->|[->|[->| ->]]]]]; cbn.
  - rewrite sin_neg. f_equal; ring.
  - rewrite cos_neg. vdec; cbn; auto. rewrite tan_neg. f_equal; ring.
  - f_equal. unfold sinh. rewrite Ropp_involutive. field.
  - rewrite tanh_opp. f_equal; ring.
  - vdec; cbn; auto; try lra; try (rewrite asin_opp; f_equal; ring); vdec; auto; lra.
  - rewrite atan_opp. f_equal; ring.
Qed.
Lemma vmul_opp_opp v : vmul (Rv (-1)) (vmul (Rv (-1)) v) = v.
Proof. rewrite vmul_assoc. cbn [vmul]. replace (-1 * -1) with 1 by ring. apply vmul_1_l. Qed.

Lemma even_step f e m v : f = Fcos \/ f = Fcosh -> wf e -> e_neg I n e = Ok m -> sound v (vfun f [ev m]) ->
  sound v (vfun f [ev e]).
Proof.
  intros Hf He Hm [W V]. apply sound_fn; auto; [destruct Hf; subst; discriminate|].
  intros x Hx. destruct (e_neg_Rv e m x He Hm Hx) as [_ Vm]. rewrite Vm in V.
  rewrite <- vfun1_even by tauto. destruct Hf; subst; exact V.
Qed.
Lemma odd_step f e m w v : (f = Fsin \/ f = Ftan \/ f = Fsinh \/ f = Ftanh \/ f = Fasin \/ f = Fatan) ->
  wf e -> e_neg I n e = Ok m -> sound w (vfun f [ev m]) ->
  e_neg I n w = Ok v -> sound v (vfun f [ev e]).
Proof.
  intros Hf He Hm [W V] Hv. destruct (e_neg_sound w v W Hv) as [Wv Vv]. apply sound_fn; auto.
  { destruct Hf as [->|[->|[->|[->|[->| ->]]]]]; discriminate. }
  intros x Hx. destruct (e_neg_Rv e m x He Hm Hx) as [_ Vm]. rewrite Vm in V.
  eapply refines_trans; [exact Vv|]. replace (vfun f [Rv (- x)]) with (vfun1 f (- x)) in V.
  2:{ destruct Hf as [->|[->|[->|[->|[->| ->]]]]]; reflexivity. }
  rewrite vfun1_odd in V by auto. rewrite <- (vmul_opp_opp (vfun1 f x)). now apply vmul_refines_r.
Qed.

Lemma sound_Rv' e v x y : wf e -> v = Rv x -> x = y -> ev e = Rv y -> sound e v.
Proof. intros H -> -> H1. split; auto. Qed.

Lemma cos_body_sound self e v : (forall e v, wf e -> self e = Ok v -> sound v (vfun Fcos [ev e])) ->
  wf e -> cos_body I n self e = Ok v -> sound v (vfun Fcos [ev e]).
Proof.
  intros Hself He H. unfold cos_body in H. binv H. destruct (pi_factor x) as [q|] eqn:Eq.
  - destruct (pi_factor_val _ _ _ E He Eq) as [Hq Ve]. binv H. destruct (mod_pi_val q x0 Hq E0) as (Hm & _ & k & Hk).
    assert (C : cos (rat_val q * PI) = cos (rat_val x0 * PI)).
    { rewrite Hk, <- (cos_period_Z (rat_val x0 * PI) k). f_equal. ring. }
    apply sound_fn; [discriminate| |intros y Hy].
    + destruct (rat_is_zero x0); [injection H as <-; apply (wf_numbers s)|].
      destruct (rat_is_one x0); [injection H as <-; apply (wf_numbers s)|].
      destruct (is_half x0 || is_neg_half x0); [injection H as <-; apply (wf_numbers s)|].
      binv H. injection H as <-. apply times_pi_val in E1; auto. cbn. intuition.
    + rewrite Hy in Ve. injection Ve as ->. cbn [vfun1]. rewrite C.
      destruct (rat_is_zero x0) eqn:Z0; [injection H as <-; rewrite (is_zero_rat _ Z0), Rmult_0_l, cos_0; reflexivity|].
      destruct (rat_is_one x0) eqn:Z1; [injection H as <-; rewrite (is_one_rat _ Hm Z1), Rmult_1_l, cos_PI; reflexivity|].
      destruct (is_half x0 || is_neg_half x0) eqn:Z2.
      * injection H as <-. apply orb_prop in Z2. destruct Z2 as [Z2|Z2].
        -- rewrite (is_half_val _ Z2). unfold rat_val; cbn [num den]. rewrite cos_half. reflexivity.
        -- rewrite (is_neg_half_val _ Z2). unfold rat_val; cbn [num den]. rewrite cos_neg_half. reflexivity.
      * binv H. injection H as <-. apply times_pi_val in E1; auto. destruct E1 as [_ V1]. cbn [eval map]. rewrite V1. reflexivity.
  - destruct x as [c m]. cbn [fst snd] in H. destruct (negb (is_pi m) && is_zero c) eqn:Ez.
    + injection H as <-. apply andb_prop in Ez. destruct Ez as [_ Ez].
      destruct (as_coeff_and_mul_spec I s e c m E He) as (_ & _ & V & _ & N1 & _). specialize (V s). apply is_zero_val in Ez. subst c.
      destruct (is_num e) eqn:En; [|destruct (N1 eq_refl) as (_ & N2 & _); discriminate].
      apply sound_fn; [discriminate|apply (wf_numbers s)|]. intros x Hx. rewrite Hx in V. cbn [eval] in V.
      destruct (ev m) as [y| |]; cbn in V; try discriminate; [|destruct (Req_EM_T 0 0); [|congruence]]; injection V as ->; cbn.
      * now rewrite Rmult_0_l, cos_0.
      * now rewrite cos_0.
    + destruct (is_negative_number e).
      * binv H. apply even_step with (m := x); auto. apply Hself; auto. exact (proj1 (e_neg_sound _ _ He E0)).
      * apply finish_sound in H; auto; discriminate.
Qed.

Lemma sin_body_sound self e v : (forall e v, wf e -> self e = Ok v -> sound v (vfun Fsin [ev e])) ->
  wf e -> sin_body I n self e = Ok v -> sound v (vfun Fsin [ev e]).
Proof.
  intros Hself He H. unfold sin_body in H. binv H. destruct (pi_factor x) as [q|] eqn:Eq.
  - destruct (pi_factor_val _ _ _ E He Eq) as [Hq Ve]. binv H. destruct (mod_pi_val q x0 Hq E0) as (Hm & _ & k & Hk).
    assert (C : sin (rat_val q * PI) = sin (rat_val x0 * PI)).
    { rewrite Hk, <- (sin_period_Z (rat_val x0 * PI) k). f_equal. ring. }
    apply sound_fn; [discriminate| |intros y Hy].
    + destruct (rat_is_zero x0 || rat_is_one x0); [injection H as <-; apply (wf_numbers s)|].
      destruct (is_half x0); [injection H as <-; apply (wf_numbers s)|].
      destruct (is_neg_half x0); [injection H as <-; apply (wf_numbers s)|].
      binv H. injection H as <-. apply times_pi_val in E1; auto. cbn. intuition.
    + rewrite Hy in Ve. injection Ve as ->. cbn [vfun1]. rewrite C.
      destruct (rat_is_zero x0 || rat_is_one x0) eqn:Z0.
      { injection H as <-. apply orb_prop in Z0. destruct Z0 as [Z0|Z0].
        - rewrite (is_zero_rat _ Z0), Rmult_0_l, sin_0. reflexivity.
        - rewrite (is_one_rat _ Hm Z0), Rmult_1_l, sin_PI. reflexivity. }
      destruct (is_half x0) eqn:Z2.
      { injection H as <-. rewrite (is_half_val _ Z2). unfold rat_val; cbn [num den]. rewrite sin_half. reflexivity. }
      destruct (is_neg_half x0) eqn:Z3.
      { injection H as <-. rewrite (is_neg_half_val _ Z3). unfold rat_val; cbn [num den]. rewrite sin_neg_half. reflexivity. }
      binv H. injection H as <-. apply times_pi_val in E1; auto. destruct E1 as [_ V1]. cbn [eval map]. rewrite V1. reflexivity.
  - destruct (negb (is_pi (snd x)) && is_zero e) eqn:Ez.
    + injection H as <-. apply andb_prop in Ez. destruct Ez as [_ Ez]. apply is_zero_val in Ez. subst e.
      split; [apply (wf_numbers s)|]. cbn. now rewrite sin_0.
    + destruct (is_negative_number e).
      * binv H. binv H. eapply odd_step; [auto|exact He|exact E0| |exact H]. apply Hself; auto. exact (proj1 (e_neg_sound _ _ He E0)).
      * apply finish_sound in H; auto; discriminate.
Qed.

Lemma cos_shift x k : cos (x + IZR k * PI) = 0 <-> cos x = 0.
Proof.
  assert (Hp : forall y, cos (y + PI) = - cos y) by apply neg_cos.
  destruct (Z.Even_or_Odd k) as [[j ->]|[j ->]].
  - rewrite mult_IZR. now rewrite cos_period_Z.
  - rewrite plus_IZR, mult_IZR. replace (x + (2 * IZR j + 1) * PI) with ((x + 2 * IZR j * PI) + PI) by ring.
    rewrite Hp, cos_period_Z. split; lra.
Qed.
Lemma tan_shift x k : tan (x + IZR k * PI) = tan x.
Proof.
  assert (Hc : forall y, cos (y + PI) = - cos y) by apply neg_cos.
  assert (Hs : forall y, sin (y + PI) = - sin y) by apply neg_sin.
  unfold tan. destruct (Z.Even_or_Odd k) as [[j ->]|[j ->]].
  - rewrite mult_IZR. now rewrite cos_period_Z, sin_period_Z.
  - rewrite plus_IZR, mult_IZR. replace (x + (2 * IZR j + 1) * PI) with ((x + 2 * IZR j * PI) + PI) by ring.
    rewrite Hc, Hs, cos_period_Z, sin_period_Z. unfold Rdiv. destruct (Req_dec (cos x) 0) as [->|Hn].
    + rewrite Ropp_0. unfold Rdiv. replace (/ 0) with 0; [ring|]. symmetry. apply Rinv_0.
    + field. auto.
Qed.

Lemma tan_fold_val q m0 m : canon q -> mod_pi_rational q = Ok m0 -> convert_to_tan_range m0 = Ok m ->
  canon m /\ exists k, rat_val q = rat_val m + IZR k.
Proof.
  intros Hq H0 H. destruct (mod_pi_val q m0 Hq H0) as (Hm0 & _ & k & Hk).
  destruct (tan_range_val m0 m Hm0 H) as (Hm & Hv). split; auto.
  destruct Hv as [Hv|[Hv|Hv]].
  - exists (2 * k)%Z. rewrite mult_IZR. lra.
  - exists (2 * k + 1)%Z. rewrite plus_IZR, mult_IZR. lra.
  - exists (2 * k - 1)%Z. rewrite minus_IZR, mult_IZR. lra.
Qed.

Lemma tan_body_sound self e v : (forall e v, wf e -> self e = Ok v -> sound v (vfun Ftan [ev e])) ->
  wf e -> tan_body I n self e = Ok v -> sound v (vfun Ftan [ev e]).
Proof.
  intros Hself He H. unfold tan_body in H. binv H. destruct (pi_factor x) as [q|] eqn:Eq.
  - destruct (pi_factor_val _ _ _ E He Eq) as [Hq Ve]. binv H. binv H.
    destruct (tan_fold_val q x0 x1 Hq E0 E1) as (Hm & k & Hk).
    assert (C : cos (rat_val q * PI) = 0 <-> cos (rat_val x1 * PI) = 0).
    { rewrite Hk, <- (cos_shift (rat_val x1 * PI) k). rewrite Rmult_plus_distr_r. tauto. }
    assert (T : tan (rat_val q * PI) = tan (rat_val x1 * PI)).
    { rewrite Hk, <- (tan_shift (rat_val x1 * PI) k). f_equal. ring. }
    apply sound_fn; [discriminate| |intros y Hy].
    + destruct (rat_is_zero x1); [injection H as <-; apply (wf_numbers s)|].
      destruct (is_half x1 || is_neg_half x1); [injection H as <-; exact Logic.I|].
      binv H. injection H as <-. apply times_pi_val in E2; auto. cbn. intuition.
    + rewrite Hy in Ve. injection Ve as ->. cbn [vfun1].
      destruct (Req_EM_T (cos (rat_val q * PI)) 0) as [C0|C0]; [exact Logic.I|]. rewrite T. rewrite C in C0.
      destruct (rat_is_zero x1) eqn:Z0; [injection H as <-; rewrite (is_zero_rat _ Z0), Rmult_0_l, tan_0; reflexivity|].
      destruct (is_half x1 || is_neg_half x1) eqn:Z2.
      * exfalso. apply C0. apply orb_prop in Z2. destruct Z2 as [Z2|Z2].
        -- rewrite (is_half_val _ Z2). unfold rat_val; cbn [num den]. apply cos_half.
        -- rewrite (is_neg_half_val _ Z2). unfold rat_val; cbn [num den]. apply cos_neg_half.
      * binv H. injection H as <-. apply times_pi_val in E2; auto. destruct E2 as [_ V1]. cbn [eval map]. rewrite V1.
        cbn. destruct (Req_EM_T (cos (rat_val x1 * PI)) 0); [contradiction|reflexivity].
  - destruct (negb (is_pi (snd x)) && is_zero e) eqn:Ez.
    + injection H as <-. apply andb_prop in Ez. destruct Ez as [_ Ez]. apply is_zero_val in Ez. subst e.
      split; [apply (wf_numbers s)|]. cbn. rewrite tan_0. vdec; cbn; auto.
    + destruct (is_negative_number e).
      * binv H. binv H. eapply odd_step; [auto|exact He|exact E0| |exact H]. apply Hself; auto. exact (proj1 (e_neg_sound _ _ He E0)).
      * apply finish_sound in H; auto; discriminate.
Qed.

Lemma cosh_body_sound self e v : (forall e v, wf e -> self e = Ok v -> sound v (vfun Fcosh [ev e])) ->
  wf e -> cosh_body I n self e = Ok v -> sound v (vfun Fcosh [ev e]).
Proof.
  intros Hself He H. unfold cosh_body in H. destruct (is_zero e) eqn:Ez; [|destruct (is_negative_number e)].
  - injection H as <-. apply is_zero_val in Ez. subst e. split; [apply (wf_numbers s)|]. cbn. now rewrite cosh_0.
  - binv H. apply even_step with (m := x); auto. apply Hself; auto. exact (proj1 (e_neg_sound _ _ He E)).
  - apply finish_sound in H; auto; try discriminate. intros g h l Hg Hn -> y l' -> x Hx. injection Hg as <-.
    destruct h; try discriminate Hn. cbn [eval map] in Hx. destruct l' as [|]; [|destruct (ev y); discriminate Hx].
    cbn [map] in Hx. destruct (ev y) as [z| |]; try discriminate Hx. cbn in Hx. destruct (Rle_dec 1 z); [|discriminate].
    injection Hx as <-. cbn. now rewrite cosh_acosh.
Qed.
Lemma sinh_body_sound self e v : (forall e v, wf e -> self e = Ok v -> sound v (vfun Fsinh [ev e])) ->
  wf e -> sinh_body I n self e = Ok v -> sound v (vfun Fsinh [ev e]).
Proof.
  intros Hself He H. unfold sinh_body in H. destruct (is_zero e) eqn:Ez; [|destruct (is_negative_number e)].
  - injection H as <-. apply is_zero_val in Ez. subst e. split; [apply (wf_numbers s)|]. cbn. now rewrite sinh_0.
  - binv H. binv H. eapply odd_step; [auto|exact He|exact E| |exact H]. apply Hself; auto. exact (proj1 (e_neg_sound _ _ He E)).
  - apply finish_sound in H; auto; try discriminate. intros g h l Hg Hn -> y l' -> x Hx. injection Hg as <-.
    destruct h; try discriminate Hn. cbn [eval map] in Hx. destruct l' as [|]; [|destruct (ev y); discriminate Hx].
    cbn [map] in Hx. destruct (ev y) as [z| |]; try discriminate Hx. cbn in Hx.
    injection Hx as <-. cbn. now rewrite sinh_asinh.
Qed.
Lemma tanh_body_sound self e v : (forall e v, wf e -> self e = Ok v -> sound v (vfun Ftanh [ev e])) ->
  wf e -> tanh_body I n self e = Ok v -> sound v (vfun Ftanh [ev e]).
Proof.
  intros Hself He H. unfold tanh_body in H. destruct (is_zero e) eqn:Ez; [|destruct (is_negative_number e)].
  - injection H as <-. apply is_zero_val in Ez. subst e. split; [apply (wf_numbers s)|]. cbn.
    unfold tanh. rewrite sinh_0. unfold Rdiv. now rewrite Rmult_0_l.
  - binv H. binv H. eapply odd_step; [auto|exact He|exact E| |exact H]. apply Hself; auto. exact (proj1 (e_neg_sound _ _ He E)).
  - apply finish_sound in H; auto; try discriminate. intros g h l Hg Hn -> y l' -> x Hx. injection Hg as <-.
    destruct h; try discriminate Hn. cbn [eval map] in Hx. destruct l' as [|]; [|destruct (ev y); discriminate Hx].
    cbn [map] in Hx. destruct (ev y) as [z| |]; try discriminate Hx. cbn in Hx.
    destruct (Req_EM_T (z * z) 1); [discriminate|]. destruct (Rlt_dec (z * z) 1); [|discriminate].
    injection Hx as <-. cbn. now rewrite tanh_atanh.
Qed.

Lemma trig_sound k : forall f e v, is_trig f = true -> wf e -> trig I n k f e = Ok v -> sound v (vfun f [ev e]).
Proof.
  induction k as [|k IH]; intros f e v Hf He H; [discriminate|]. cbn [trig] in H.
  destruct (has_imag e) eqn:Hi.
  - binv H. binv H. destruct (divide_imag_val e x Hi He E) as [W V].
    apply IH in E0; auto; [|destruct f; try discriminate Hf; reflexivity]. destruct E0 as [W0 V0].
    assert (T0 : tan 0 = 0) by apply tan_0.
    assert (TH0 : tanh 0 = 0) by (unfold tanh; rewrite sinh_0; unfold Rdiv; ring).
    assert (C0 : cos 0 <> 0) by (rewrite cos_0; lra).
    assert (G : forall g, vfun1 g 0 = Rv 0 -> vfun1 (hyp_swap g) 0 = Rv 0 -> f = g -> e_mul2 I n EImag x0 = Ok v -> g <> Fatan2 ->
       hyp_swap g <> Fatan2 -> sound v (vfun f [ev e])).
    { intros g Hg Hs -> Hv Hg2 Hg3. destruct (e_mul2_sound EImag x0 v Logic.I W0 Hv) as [Wv Vv].
      apply sound_fn; auto. intros y Hy. destruct (V y Hy) as [-> Vx]. rewrite Vx in V0.
      assert (Vg : vfun (hyp_swap g) [Rv 0] = Rv 0) by (transitivity (vfun1 (hyp_swap g) 0); [destruct (hyp_swap g); auto; congruence|exact Hs]).
      rewrite Vg in V0. cbn in V0. rewrite V0 in Vv. cbn in Vv. destruct (Req_EM_T 0 0); [|congruence]. rewrite Vv, Hg. auto. }
    destruct f; try discriminate Hf.
    + injection H as <-. apply sound_fn; auto; [discriminate|]. intros y Hy. destruct (V y Hy) as [-> Vx]. rewrite Vx in V0.
      cbn in V0. rewrite V0. cbn. now rewrite cosh_0, cos_0.
    + apply (G Fsin); auto; try discriminate; cbn; rewrite ?sin_0, ?sinh_0; auto.
    + apply (G Ftan); auto; try discriminate; cbn; rewrite ?T0, ?TH0; auto. destruct (Req_EM_T (cos 0) 0); [contradiction|auto].
    + injection H as <-. apply sound_fn; auto; [discriminate|]. intros y Hy. destruct (V y Hy) as [-> Vx]. rewrite Vx in V0.
      cbn in V0. rewrite V0. cbn. now rewrite cosh_0, cos_0.
    + apply (G Fsinh); auto; try discriminate; cbn; rewrite ?sin_0, ?sinh_0; auto.
    + apply (G Ftanh); auto; try discriminate; cbn; rewrite ?T0, ?TH0; auto. destruct (Req_EM_T (cos 0) 0); [contradiction|auto].
  - destruct f; try discriminate Hf.
    + eapply cos_body_sound in H; eauto.
    + eapply sin_body_sound in H; eauto.
    + eapply tan_body_sound in H; eauto.
    + eapply cosh_body_sound in H; eauto.
    + eapply sinh_body_sound in H; eauto.
    + eapply tanh_body_sound in H; eauto.
Qed.

(** ** Inverse functions *)
Lemma finish_inverse_sound f e v : f <> Fatan2 -> f <> Flog -> wf e -> finish_inverse I n f e = Ok v -> sound v (vfun f [ev e]).
Proof.
  intros H1 H2 He H. unfold finish_inverse in H. destruct (is_undefined e || is_inf e) eqn:Eu.
  - injection H as <-. apply sound_fn; auto; [exact Logic.I|]. destruct e; try discriminate Eu; discriminate.
  - binv H. destruct x as [w|].
    + injection H as <-. apply (operate_on_float_spec I s _ Hr) in E; auto. destruct E as [W V].
      apply sound_fn; auto. intros x Hx. destruct V; congruence.
    + injection H as <-. now apply EFun_sound.
Qed.

Lemma acos_sound e v : wf e -> acos_fn I n e = Ok v -> sound v (vfun Facos [ev e]).
Proof.
  intros He H. unfold acos_fn in H. destruct (is_zero e) eqn:E0; [|destruct (is_one e) eqn:E1; [|destruct (is_negative_one e) eqn:E2]].
  - apply is_zero_val in E0. subst. apply pi_over_val in H; [|unfold_range; lia|lia]. destruct H as [W V]. split; auto. rewrite V.
    cbn. vdec; try lra. cbn. now rewrite acos_0.
  - apply is_one_val' in E1. subst. injection H as <-. split; [apply (wf_numbers s)|]. cbn. vdec; try lra. cbn. now rewrite acos_1.
  - apply is_negative_one_val in E2. subst. injection H as <-. split; [exact Logic.I|]. cbn. vdec; try lra. cbn. now rewrite acos_m1.
  - apply finish_inverse_sound in H; auto; discriminate.
Qed.

Lemma odd_inverse_sound f one k : (f = Fasin /\ one = 2%Z) \/ (f = Fatan /\ one = 4%Z) ->
  forall e v, wf e -> odd_inverse I n f one k e = Ok v -> sound v (vfun f [ev e]).
Proof.
  intros Hf. assert (F0 : vfun1 f 0 = Rv 0).
  { destruct Hf as [[-> ->]|[-> ->]]; cbn; [vdec; try lra; now rewrite asin_0|now rewrite atan_0]. }
  assert (F1 : vfun1 f 1 = Rv (PI / IZR one)).
  { destruct Hf as [[-> ->]|[-> ->]]; cbn; [vdec; try lra; now rewrite asin_1|now rewrite atan_1]. }
  assert (Fm : vfun1 f (-1) = Rv (- (PI / IZR one))).
  { destruct Hf as [[-> ->]|[-> ->]]; cbn; [vdec; try lra; now rewrite asin_m1|now rewrite atan_m1]. }
  assert (F2 : forall x, vfun f [Rv x] = vfun1 f x) by (destruct Hf as [[-> ->]|[-> ->]]; reflexivity).
  assert (Ho : in_i64 one /\ (0 < one)%Z) by (destruct Hf as [[-> ->]|[-> ->]]; unfold_range; lia). destruct Ho as [Ho1 Ho2].
  induction k as [|k IH]; intros e v He H; [discriminate|]. cbn [odd_inverse] in H.
  destruct (is_zero e) eqn:E0; [|destruct (is_one e) eqn:E1; [|destruct (is_negative_one e) eqn:E2; [|destruct (is_negative_number e)]]].
  - apply is_zero_val in E0. subst. injection H as <-. split; [apply (wf_numbers s)|]. cbn [eval]. rewrite F2, F0. reflexivity.
  - apply is_one_val' in E1. subst. apply pi_over_val in H; auto. destruct H as [W V]. split; auto. cbn [eval]. rewrite F2, F1, V. reflexivity.
  - apply is_negative_one_val in E2. subst. binv H. apply pi_over_val in E; auto. destruct E as [W V].
    eapply e_neg_Rv in H; eauto. destruct H as [W1 V1]. split; auto. cbn [eval]. change (IZR (-1)) with (-1). rewrite F2, Fm, V1. reflexivity.
  - binv H. binv H. eapply odd_step; [|exact He|exact E| |exact H]; [destruct Hf as [[-> ->]|[-> ->]]; tauto|].
    apply IH; auto. exact (proj1 (e_neg_sound _ _ He E)).
  - apply finish_inverse_sound in H; auto; destruct Hf as [[-> ->]|[-> ->]]; discriminate.
Qed.

Lemma acosh_sound e v : wf e -> acosh_fn I n e = Ok v -> sound v (vfun Facosh [ev e]).
Proof.
  intros He H. unfold acosh_fn in H. destruct (is_zero e) eqn:E0.
  - apply is_zero_val in E0. subst. binv H. apply e_mul2_sound in E; try exact Logic.I. destruct E as [W V].
    apply e_div_int in H; [|auto|unfold_range; lia|lia]. destruct H as [W1 V1]. split; auto.
    cbn. vdec; [lra|]. cbn [eval] in V. cbn [refines].
    assert (P0 : PI <> 0) by (pose proof PI_RGT_0; lra).
    assert (Vx : ev x <> Top). { cbn in V. destruct (Req_EM_T PI 0) in V; [contradiction|exact V]. }
    destruct (ev x) as [y| |] eqn:Ex; [| |congruence].
    + cbn in V1. congruence.
    + cbn in V1. destruct (Req_EM_T (/ 2) 0) in V1; [lra|exact V1].
  - apply finish_sound in H; auto; discriminate.
Qed.
Lemma asinh_sound e v : wf e -> asinh_fn I n e = Ok v -> sound v (vfun Fasinh [ev e]).
Proof.
  intros He H. unfold asinh_fn in H. destruct (is_zero e) eqn:E0.
  - apply is_zero_val in E0. subst. injection H as <-. split; [apply (wf_numbers s)|]. cbn.
    rewrite Rmult_0_l, !Rplus_0_l, sqrt_1, ln_1. reflexivity.
  - apply finish_sound in H; auto; discriminate.
Qed.
Lemma atanh_sound e v : wf e -> atanh_fn I n e = Ok v -> sound v (vfun Fatanh [ev e]).
Proof.
  intros He H. unfold atanh_fn in H. destruct (is_zero e) eqn:E0.
  - apply is_zero_val in E0. subst. injection H as <-. split; [apply (wf_numbers s)|]. cbn. rewrite Rmult_0_l.
    vdec; try lra. cbn. replace ((1 + 0) / (1 - 0)) with 1 by field. rewrite ln_1. f_equal; ring.
  - apply finish_sound in H; auto; discriminate.
Qed.

Lemma log_sound e v : wf e -> (determine_set e = real_positive -> forall x, ev e = Rv x -> 1 < x) ->
  log_fn I n e = Ok v -> sound v (vfun Flog [ev e]).
Proof.
  intros He Hp H. unfold log_fn in H. destruct (ident e (ESym Euler)) eqn:Ee; [|destruct (is_one e) eqn:E1; [|destruct (is_zero e) eqn:E0]].
  - injection H as <-. apply (ident_eval s) in Ee. split; [apply (wf_numbers s)|]. rewrite Ee. cbn.
    pose proof (exp_pos 1). vdec; try lra. cbn. now rewrite ln_exp.
  - apply is_one_val' in E1. subst. injection H as <-. split; [apply (wf_numbers s)|]. cbn. vdec; try lra. cbn. now rewrite ln_1.
  - apply is_zero_val in E0. subst. injection H as <-. split; [exact Logic.I|]. cbn. vdec; try lra. exact Logic.I.
  - destruct (is_inf e || is_undefined e) eqn:Eu.
    + injection H as <-. apply sound_fn; [discriminate|exact Logic.I|]. destruct e; try discriminate Eu; discriminate.
    + binv H. destruct x as [w|].
      * injection H as <-. apply (operate_on_float_spec I s _ Hr) in E; auto. destruct E as [W V].
        apply sound_fn; auto; [discriminate|]. intros x Hx. destruct V; congruence.
      * injection H as <-. split; [|cbn [eval map]; auto]. cbn. repeat split; auto.
Qed.

Lemma exp_sound e v : wf e -> e_exp I n e = Ok v -> sound v (vfun Fexp [ev e]).
Proof. intros He H. now apply (exp_body_spec I s (ops_n I n) Hr) in H. Qed.

Lemma sqrt_sound e v : wf e -> sqrt_fn I n e = Ok v -> sound v (vpow (ev e) (Rv (/ 2))).
Proof.
  intros He H. unfold sqrt_fn in H. binv H. eapply e_div_Rv in E; [|apply (wf_numbers s)|unfold_range; lia|lia|reflexivity].
  destruct E as [W V]. apply e_pow_sound in H; auto. rewrite V in H. replace (1 / 2) with (/ 2) in H by field. exact H.
Qed.

Lemma atan2_int_sound y x v : in_i64 y -> in_i64 x -> atan2_int I n y x = Ok (Some v) ->
  sound v (vfun Fatan2 [Rv (IZR y); Rv (IZR x)]).
Proof.
  intros Hy Hx H. unfold atan2_int in H.
  destruct ((y =? 0)%Z && (x =? 1)%Z) eqn:C1.
  { apply andb_prop in C1. destruct C1 as [C1 C2]. apply Z.eqb_eq in C1, C2. subst. injection H as <-. split; [apply (wf_numbers s)|].
    cbn. vdec; try lra. unfold atan2_R. vdec; try lra. cbn. replace (0 / 1) with 0 by field. now rewrite atan_0. }
  destruct ((y =? 1)%Z && (x =? 0)%Z) eqn:C2.
  { apply andb_prop in C2. destruct C2 as [C2 C3]. apply Z.eqb_eq in C2, C3. subst. binv H. injection H as <-.
    apply pi_over_val in E; [|unfold_range; lia|lia]. destruct E as [W V]. split; auto. rewrite V.
    cbn. vdec; try lra. unfold atan2_R. vdec; try lra. cbn. reflexivity. }
  destruct ((y =? 0)%Z && (x =? -1)%Z) eqn:C3.
  { apply andb_prop in C3. destruct C3 as [C3 C4]. apply Z.eqb_eq in C3, C4. subst. injection H as <-. split; [exact Logic.I|].
    cbn. vdec; try lra. unfold atan2_R. vdec; try lra. cbn. replace (0 / -1) with 0 by field. rewrite atan_0. f_equal; ring. }
  destruct ((y =? -1)%Z && (x =? 0)%Z) eqn:C4.
  { apply andb_prop in C4. destruct C4 as [C4 C5]. apply Z.eqb_eq in C4, C5. subst. binv H. binv H. injection H as <-.
    apply pi_over_val in E; [|unfold_range; lia|lia]. destruct E as [W V]. eapply e_neg_Rv in E0; eauto. destruct E0 as [W1 V1].
    split; auto. rewrite V1. cbn. vdec; try lra. unfold atan2_R. vdec; try lra. cbn. reflexivity. }
  binv H. binv H. apply ck_abs_inv in E; auto. destruct E as [-> _]. apply ck_abs_inv in E0; auto. destruct E0 as [-> _].
  destruct ((Z.abs y =? Z.abs x)%Z && negb (x =? 0)%Z) eqn:C5; [|discriminate].
  apply andb_prop in C5. destruct C5 as [C5 C6]. apply Z.eqb_eq in C5. apply negb_true_iff, Z.eqb_neq in C6.
  binv H. injection H as <-.
  assert (Pi4 : forall a v w r, wf a -> ev a = Rv r -> e_div I n a (EInt 4) = Ok w -> w = v -> wf v /\ ev v = Rv (r / 4)).
  { intros a v w r Wa Va Hw <-. apply (e_div_Rv a 4 w r); auto; [unfold_range; lia|lia]. }
  assert (A4 : atan 1 = PI / 4) by apply atan_1. assert (A4m : atan (-1) = - (PI / 4)) by apply atan_m1.
  assert (X0 : IZR x <> 0) by now apply IZR_neq.
  cbn [vfun]. destruct (Req_EM_T (IZR x) 0) as [?|_]; [contradiction|]. unfold atan2_R.
  destruct (y <? 0)%Z eqn:Ly; destruct (x <? 0)%Z eqn:Lx.
  - apply Z.ltb_lt in Ly, Lx. assert (y = x) by lia. subst y. binv E.
    apply e_mul2_sound in E0; [|unfold ExprSpec.wf; unfold_range; lia|exact Logic.I]. destruct E0 as [W V]. cbn in V.
    destruct (Pi4 _ x0 _ _ W V E eq_refl) as [W1 V1]. split; auto. rewrite V1. apply IZR_lt in Lx. vdec; try lra. cbn.
    replace (IZR x / IZR x) with 1 by (field; auto). rewrite A4. f_equal. field.
  - apply Z.ltb_lt in Ly. apply Z.ltb_ge in Lx. assert (y = - x)%Z by lia. subst y. binv E.
    destruct (e_neg_Rv (ESym Pi) _ PI Logic.I E0 eq_refl) as [W V].
    destruct (Pi4 _ x0 _ _ W V E eq_refl) as [W1 V1]. split; auto. rewrite V1. assert (0 < x)%Z by lia. apply IZR_lt in H. vdec; try lra. cbn.
    rewrite opp_IZR. replace (- IZR x / IZR x) with (-1) by (field; auto). rewrite A4m. f_equal. field.
  - apply Z.ltb_lt in Lx. apply Z.ltb_ge in Ly. assert (y = - x)%Z by lia. subst y. binv E.
    apply e_mul2_sound in E0; [|unfold ExprSpec.wf; unfold_range; lia|exact Logic.I]. destruct E0 as [W V]. cbn in V.
    destruct (Pi4 _ x0 _ _ W V E eq_refl) as [W1 V1]. split; auto. rewrite V1. apply IZR_lt in Lx. rewrite opp_IZR. vdec; try lra. cbn.
    replace (- IZR x / IZR x) with (-1) by (field; auto). rewrite A4m. f_equal. field.
  - apply Z.ltb_ge in Lx, Ly. assert (y = x) by lia. subst y.
    apply pi_over_val in E; [|unfold_range; lia|lia]. destruct E as [W V]. split; auto. rewrite V. assert (0 < x)%Z by lia. apply IZR_lt in H.
    vdec; try lra. cbn. replace (IZR x / IZR x) with 1 by (field; auto). rewrite A4. f_equal.
Qed.

Lemma atan2_sound y x v : wf y -> wf x -> atan2_fn I n y x = Ok v -> sound v (vfun Fatan2 [ev y; ev x]).
Proof.
  intros Hy Hx H. assert (G : sound (EFun Fatan2 [y; x]) (vfun Fatan2 [ev y; ev x])) by (split; [cbn; auto|auto]).
  assert (G1 : forall w, (ev y = Top \/ ev x = Top) -> wf w -> sound w (vfun Fatan2 [ev y; ev x])).
  { intros w Hw Ww. split; auto. destruct Hw as [->| ->]; [exact Logic.I|]. destruct (ev y); exact Logic.I. }
  unfold atan2_fn in H. binv H. destruct x0 as [w|]; [|injection H as <-; exact G]. injection H as ->.
  destruct y; destruct x; try discriminate E; try (injection E as <-; apply G1; [cbn; auto|first [exact Logic.I|apply of_float_wf]]).
  now apply atan2_int_sound.
Qed.

Lemma abs_sound e v : wf e -> abs_fn I e = Ok v -> sound v (vfun Fabs [ev e]).
Proof.
  intros He H.
  assert (Grat : forall q, canon q -> ev e = Rv (rat_val q) ->
     (if (0 <=? num q)%Z then (if (0 <? den q)%Z then Ok e else Throws)
      else bind (ck_neg (num q)) (fun m => bind (rat_make m (den q)) of_rat)) = Ok v -> sound v (vfun Fabs [ev e])).
  { intros q Hq Ve Hv. destruct (rat_val_sign q Hq) as (S1 & S2 & S3). destruct (canon_in q Hq) as (Nq & Dq & Pq).
    destruct (0 <=? num q)%Z eqn:L.
    - destruct (0 <? den q)%Z; [|discriminate]. injection Hv as <-. split; auto. rewrite Ve. cbn. apply Z.leb_le in L.
      rewrite Rabs_pos_eq; auto. destruct (Z.eq_dec (num q) 0) as [Z0|Z0]; [apply S2 in Z0; lra|].
      assert (0 < num q)%Z by lia. apply S3 in H0. lra.
    - apply Z.leb_gt in L. binv Hv. apply ck_neg_inv in E; auto. destruct E as [-> R]. binv Hv.
      apply rat_make_inv in E; auto; [|lia]. destruct E as [Hc Hv1]. apply of_rat_inv in Hv; auto. destruct Hv as (W & V & _).
      split; auto. rewrite Ve, V, Hv1. cbn. apply S1 in L. rewrite Rabs_left by auto. f_equal. unfold rat_val. rewrite opp_IZR.
      field. now apply canon_den. }
  assert (Gabs : wf (EFun Fabs [e])) by (cbn; auto).
  assert (Gf : forall z, complex_cast I false e = Ok (Some z) -> sound (of_float (fst (i_cfun I Fabs z))) (vfun Fabs [ev e])).
  { intros z Hz. apply (complex_cast_val I s _) in Hz; auto. apply sound_fn; [discriminate|apply of_float_wf|].
    intros x Hx. destruct Hz; congruence. }
  unfold abs_fn in H.
  destruct e; try (cbn [try_rational complex_cast bind is_inf is_undefined orb] in H;
    first [injection H as <-; split; [exact Gabs|cbn [eval map]; apply refines_refl]
          |injection H as <-; apply Gf; reflexivity]; fail).
  - apply (Grat (rat_of_int z)); auto; [now apply rat_of_int_canon|]. cbn [eval]. now rewrite rat_of_int_val.
  - apply (Grat r); auto. apply He.
  - cbn [try_rational complex_cast bind] in H. binv H.
    destruct (compare_int_float_spec 0) with (f := symc_f64 c) as (o & E' & Ho); [unfold_range; lia|]. rewrite E in E'. injection E' as <-.
    apply exact_order_finite in Ho; [|apply symc_f64_finite]. pose proof (symc_f64_bounds c) as [B _].
    assert (0 <= symc_floor c)%Z by (destruct c; cbn; lia). apply IZR_le in H0.
    destruct Ho as [[-> _]|[[-> Ho]|[-> Ho]]]; try lra. injection H as <-. split; [exact Logic.I|].
    pose proof (symc_val_bounds c) as [P _]. destruct c; cbn in *; rewrite Rabs_pos_eq; auto; lra.
  - injection H as <-. apply sound_fn; [discriminate|exact Logic.I|discriminate].
  - injection H as <-. apply sound_fn; [discriminate|exact Logic.I|discriminate].
  - cbn [try_rational] in H. binv H. destruct x as [z|]; injection H as <-; [now apply Gf|]. split; auto.
  - cbn [try_rational] in H. binv H. destruct x as [z|]; injection H as <-; [now apply Gf|]. split; auto.
  - destruct f; try (injection H as <-; split; [exact Gabs|auto]; fail).
    injection H as <-. split; auto. cbn [eval]. destruct (map ev l) as [|[x| |] [|]]; cbn; auto. now rewrite Rabs_Rabsolu.
Qed.

Lemma sign_Z_val z : IZR (sign_Z z) = sign_R (IZR z).
Proof.
  unfold sign_Z, sign_R. destruct (Z.ltb_spec 0 z) as [H|H]; destruct (Z.ltb_spec z 0) as [H1|H1]; try lia;
    try apply IZR_lt in H; try apply IZR_lt in H1; try apply IZR_le in H; try apply IZR_le in H1; vdec; try lra; reflexivity.
Qed.
Lemma sign_R_pos_scale x y : 0 < y -> sign_R (x / y) = sign_R x.
Proof.
  intros Hy. unfold sign_R. assert (0 < / y) by now apply Rinv_0_lt_compat. unfold Rdiv. vdec; auto; nra.
Qed.
Lemma sign_range z : in_i64 (sign_Z z).
Proof. unfold sign_Z. destruct (0 <? z)%Z, (z <? 0)%Z; unfold_range; cbn; lia. Qed.

Lemma signum_sound e v : wf e -> signum_fn e = Ok v -> sound v (vfun Fsign [ev e]).
Proof.
  intros He H. assert (Gs : wf (EFun Fsign [e])) by (cbn; auto). unfold signum_fn in H.
  destruct e; try (injection H as <-; split; [exact Gs|cbn [eval map]; apply refines_refl]; fail).
  - destruct (is_nan f).
    + injection H as <-. split; [exact Gs|auto].
    + injection H as <-. apply sound_fn; [discriminate| |discriminate].
      unfold sign_f. destruct (f64_lt f64_zero f), (f64_lt f f64_zero); cbn; unfold_range; lia.
  - injection H as <-. split; [apply sign_range|]. cbn. now rewrite sign_Z_val.
  - injection H as <-. split; [apply sign_range|]. cbn. rewrite sign_Z_val. unfold rat_val. rewrite sign_R_pos_scale; auto.
    apply (IZR_lt 0). apply He.
  - injection H as <-. replace (sign_f (symc_f64 c)) with 1%Z by (destruct c; vm_compute; reflexivity).
    split; [apply (wf_numbers s)|]. pose proof (symc_val_bounds c) as [B _]. assert (0 < symc_val c) by (destruct c; cbn in *; lra).
    destruct c; cbn in *; unfold sign_R; vdec; try lra; reflexivity.
  - injection H as <-. split; [exact Logic.I|]. cbn; auto.
  - destruct f; try (injection H as <-; split; [exact Gs|auto]; fail).
    injection H as <-. split; auto. cbn [eval]. destruct (map ev l) as [|[x| |] [|]]; cbn; auto.
    unfold sign_R. vdec; auto; lra.
Qed.

Lemma Int_part_unique x z : IZR z <= x -> x < IZR z + 1 -> Int_part x = z.
Proof.
  intros H1 H2. destruct (base_Int_part x) as [A B].
  assert (IZR (Int_part x) < IZR (z + 1)) by (rewrite plus_IZR; lra). apply lt_IZR in H.
  assert (IZR z < IZR (Int_part x + 1)) by (rewrite plus_IZR; lra). apply lt_IZR in H0. lia.
Qed.

Lemma floor_rat q ip f : canon q -> rat_normalized q = Ok (ip, f) -> den q <> 1%Z ->
  in_i64 ip /\ (if (num q <? 0)%Z then Int_part (rat_val q) = (ip - 1)%Z else Int_part (rat_val q) = ip).
Proof.
  intros Hq H Hd. destruct (rat_normalized_spec q Hq) as (ip' & f' & E & Eq & Hcf & Hv & Hlt & Hs). rewrite H in E. injection E as <- <-.
  destruct (canon_in q Hq) as (Nq & Dq & Pq), (canon_in f Hcf) as (Nf & Df & Pf).
  assert (Hi : in_i64 ip) by (rewrite Eq; apply quot_in_range; auto; lia). split; auto.
  assert (V : rat_val q = IZR ip + rat_val f).
  { rewrite !ratQ_val by auto. apply Qeq_eqR in Hv. rewrite Hv, Q2R_plus. f_equal. unfold Q2R, inject_Z; cbn [Qnum Qden]. field. }
  destruct (rat_val_sign f Hcf) as (S1 & S2 & S3). destruct (rat_val_sign q Hq) as (T1 & T2 & T3).
  assert (B : -1 < rat_val f < 1).
  { assert (0 < IZR (den f)) by (apply (IZR_lt 0); lia).
    assert (L : (- den f < num f < den f)%Z) by lia. destruct L as [L1 L2]. apply IZR_lt in L1, L2. rewrite opp_IZR in L1.
    unfold rat_val. split; (apply Rmult_lt_reg_r with (IZR (den f)); [auto|]); field_simplify; lra. }
  assert (F0 : num f <> 0%Z).
  { intros F0. apply S2 in F0. apply (canon_nonint q Hq Hd). exists ip. lra. }
  destruct Hs as [Hs|Hs]; [contradiction|].
  destruct (Z.ltb_spec (num q) 0) as [L|L].
  - assert (num f < 0)%Z by lia. apply S1 in H0. apply Int_part_unique; rewrite minus_IZR; lra.
  - assert (0 < num f)%Z by lia. apply S3 in H0. apply Int_part_unique; lra.
Qed.

Lemma f64_floor_range f z : f64_floor f = Ok z -> in_i64 z.
Proof.
  unfold f64_floor. destruct f as [b|b| |b m x B]; try discriminate.
  - intros H. injection H as <-. unfold_range; lia.
  - cbv zeta. unfold mach. destruct (in_i64b _) eqn:E; [|discriminate].
    intros H. injection H as <-. unfold_range. apply andb_prop in E. destruct E as [E1 E2]. apply Z.leb_le in E1, E2. lia.
Qed.

(** The floor of a double is that of the number it denotes. *)
Lemma f64_floor_val f z : f64_floor f = Ok z -> is_finite f = true /\ Int_part (B2R f) = z.
Proof.
  unfold f64_floor. destruct f as [b|b| |b m x B]; try discriminate; intros H; (split; [reflexivity|]).
  - injection H as <-. cbn. apply Int_part_unique; lra.
  - cbv zeta in H. unfold mach in H. destruct (in_i64b _); [|discriminate]. injection H as <-.
    replace (if b then Z.neg m else Z.pos m) with (cond_Zopp b (Z.pos m)) by (destruct b; reflexivity).
    cbn [B2R]. unfold F2R. cbn [Defs.Fnum Defs.Fexp]. set (k := cond_Zopp b (Z.pos m)). clearbody k.
    destruct (Z.leb_spec 0 x) as [L|L].
    + replace (bpow radix2 x) with (IZR (2 ^ x)) by (rewrite <- IZR_Zpower by lia; reflexivity).
      rewrite <- mult_IZR. apply Int_part_unique; lra.
    + assert (P : (0 < 2 ^ (- x))%Z) by (apply Z.pow_pos_nonneg; lia).
      replace (bpow radix2 x) with (/ IZR (2 ^ (- x))).
      2:{ replace x with (- - x)%Z at 2 by lia. rewrite bpow_opp. f_equal. rewrite <- IZR_Zpower by lia. reflexivity. }
      pose proof (Z.div_mod k (2 ^ (- x)) ltac:(lia)) as D. pose proof (Z.mod_pos_bound k _ P) as [M1 M2].
      set (q := (k / 2 ^ (- x))%Z) in *. set (r := (k mod 2 ^ (- x))%Z) in *. set (d := (2 ^ (- x))%Z) in *.
      apply IZR_lt in P, M2. apply IZR_le in M1. rewrite D, plus_IZR, mult_IZR.
      apply Int_part_unique; (apply Rmult_le_reg_r with (IZR d) || apply Rmult_lt_reg_r with (IZR d)); auto; field_simplify; lra.
Qed.

Lemma floor_sound e v : wf e -> floor_fn e = Ok v -> sound v (vfun Ffloor [ev e]).
Proof.
  intros He H. assert (Gs : wf (EFun Ffloor [e])) by (cbn; auto). unfold floor_fn in H.
  destruct e; try (injection H as <-; split; [exact Gs|cbn [eval map]; apply refines_refl]; fail).
  - destruct (is_nan f); [injection H as <-; split; [exact Gs|auto]|]. binv H. injection H as <-.
    apply sound_fn; [discriminate|exact (f64_floor_range _ _ E)|discriminate].
  - injection H as <-. split; auto. cbn. f_equal. f_equal. symmetry. apply Int_part_unique; lra.
  - destruct He as [Hc Hd]. binv H. destruct x as [ip fr]. destruct (floor_rat r ip fr Hc E Hd) as [Hi Hp].
    destruct (num r <? 0)%Z.
    + binv H. injection H as <-. apply ck_sub_inv in E0; auto; [|unfold_range; lia]. destruct E0 as [-> R].
      split; [exact R|]. cbn. now rewrite Hp.
    + injection H as <-. split; [exact Hi|]. cbn. now rewrite Hp.
  - binv H. injection H as <-. assert (x = symc_floor c) by (destruct c; vm_compute in E; injection E as <-; reflexivity). subst.
    pose proof (symc_val_bounds c) as [B1 B2]. rewrite plus_IZR in B2.
    split; [destruct c; unfold ExprSpec.wf; unfold_range; cbn; lia|].
    replace (ev (ESym c)) with (Rv (symc_val c)) by (destruct c; reflexivity). cbn. f_equal. f_equal. symmetry. apply Int_part_unique; lra.
  - injection H as <-. split; [exact Logic.I|]. cbn; auto.
  - injection H as <-. split; [exact Logic.I|]. cbn; auto.
  - destruct f; try (injection H as <-; split; [exact Gs|auto]; fail).
    injection H as <-. split; auto. cbn [eval]. destruct (map ev l) as [|[x| |] [|]]; cbn; auto.
    f_equal. f_equal. symmetry. apply Int_part_unique; lra.
Qed.

(** *** Comparisons *)
Lemma less_int_val i f c t : in_i64 i -> is_finite f = true -> less_int i f c = Ok t ->
  t = true <-> match c with Lt => IZR i < B2R f | Gt => B2R f < IZR i | Eq => False end.
Proof.
  intros Hi Hf H. unfold less_int in H. destruct (compare_int_float_spec i f Hi) as (o & E & Ho). rewrite E in H. cbn [bind] in H.
  apply exact_order_finite in Ho; auto.
  destruct Ho as [[-> Ho]|[[-> Ho]|[-> Ho]]]; injection H as <-; destruct c; split; intros Hx; try discriminate; auto; try contradiction; lra.
Qed.

Lemma less_val a b m t x y : wf a -> wf b -> less a b = Some m -> m = Ok t -> ev a = Rv x -> ev b = Rv y ->
  t = true <-> x < y.
Proof.
  intros Ha Hb E Em Va Vb.
  destruct a; try discriminate E; destruct b; try discriminate E; try discriminate Va; try discriminate Vb;
    injection E as E; rewrite Em in E; clear Em m.
  - apply rat_lt_inv in E; auto; try (now apply rat_of_int_canon). rewrite !rat_of_int_val in E. cbn in Va, Vb. congruence.
  - apply rat_lt_inv in E; auto; try (now apply rat_of_int_canon); [|apply Hb]. rewrite !rat_of_int_val in E. cbn in Va, Vb. congruence.
  - apply less_int_val in E; auto; [|apply symc_f64_finite]. rewrite <- (proj1 (symc_int c z)) in E.
    destruct c; cbn in Va, Vb, E; congruence.
  - apply rat_lt_inv in E; auto; try (now apply rat_of_int_canon); [|apply Ha]. rewrite !rat_of_int_val in E. cbn in Va, Vb. congruence.
  - apply rat_lt_inv in E; auto; [|apply Ha|apply Hb]. cbn in Va, Vb. congruence.
  - apply less_int_val in E; auto; [|apply symc_f64_finite]. rewrite <- (proj2 (symc_int c z)) in E.
    destruct c; cbn in Va, Vb, E; congruence.
  - injection E as E. pose proof (symc_val_bounds c) as B. pose proof (symc_val_bounds c0) as B0.
    destruct c, c0; vm_compute in E; subst t; cbn in Va, Vb, B, B0; injection Va as <-; injection Vb as <-; split; intros; try discriminate; auto; lra.
Qed.

Lemma rel_simplify_val o a b t x y : wf a -> wf b -> rel_simplify o a b = Ok (Some t) -> ev a = Rv x -> ev b = Rv y ->
  vrel o (Rv x) (Rv y) = Rv (if t then 1 else 0).
Proof.
  intros Ha Hb H Va Vb. unfold rel_simplify in H. destruct (less a b) as [m|] eqn:E1; [|discriminate].
  destruct (less b a) as [m'|] eqn:E2; [|discriminate]. binv H. binv H. injection H as <-.
  pose proof (less_val _ _ _ _ _ _ Ha Hb E1 E Va Vb) as L1. pose proof (less_val _ _ _ _ _ _ Hb Ha E2 E0 Vb Va) as L2.
  destruct x0, x1; destruct L1 as [L1 L1'], L2 as [L2 L2']; try specialize (L1 eq_refl); try specialize (L2 eq_refl);
  try (assert (~ x < y) by (intros Q; apply L1' in Q; discriminate)); try (assert (~ y < x) by (intros Q; apply L2' in Q; discriminate));
  destruct o; cbn; vdec; auto; lra.
Qed.

Lemma vrel_eq_comm a b : vrel REq a b = vrel REq b a.
Proof. destruct a, b; cbn; auto. vdec; auto; congruence. Qed.

Lemma rel_sound o a b v : wf a -> wf b -> rel_fn o a b = Ok v ->
  is_bool v = true /\ sound v (vrel o (ev a) (ev b)).
Proof.
  intros Ha Hb H. unfold rel_fn in H. destruct (is_inf a || is_inf b || is_undefined a || is_undefined b); [discriminate|].
  binv H. destruct x as [t|].
  - injection H as <-. split; [auto|]. split; [exact Logic.I|]. destruct (ev a) eqn:Va; [|exact Logic.I|exact Logic.I].
    destruct (ev b) eqn:Vb; [|exact Logic.I|exact Logic.I].
    rewrite (rel_simplify_val o a b t x x0) by auto. reflexivity.
  - assert (G : is_bool (ERel o a b) = true /\ sound (ERel o a b) (vrel o (ev a) (ev b))).
    { split; [auto|]. split; [cbn; auto|]. apply refines_refl. }
    assert (G' : is_bool (ERel REq b a) = true /\ sound (ERel REq b a) (vrel REq (ev a) (ev b))).
    { split; [auto|]. split; [cbn; auto|]. rewrite vrel_eq_comm. apply refines_refl. }
    destruct o; try (injection H as <-; exact G). binv H. destruct x; injection H as <-; auto.
Qed.

Lemma vcond_same c a : refines a (vcond c a a).
Proof. destruct c; cbn; auto. vdec; cbn; auto using refines_refl. Qed.

Lemma cond_sound c a b v : wf c -> wf a -> wf b -> cond_fn c a b = Ok v -> sound v (vcond (ev c) (ev a) (ev b)).
Proof.
  intros Hc Ha Hb H. unfold cond_fn in H. destruct (ident c (EBool true)) eqn:E1; [|destruct (ident c (EBool false)) eqn:E2; [|destruct (ident a b) eqn:E3]];
    injection H as <-.
  - apply (ident_eval s) in E1. rewrite E1. split; auto. cbn. vdec; [apply refines_refl|lra|lra].
  - apply (ident_eval s) in E2. rewrite E2. split; auto. cbn. vdec; [lra|apply refines_refl|lra].
  - apply (ident_eval s) in E3. split; auto. rewrite E3. apply vcond_same.
  - split; [cbn; auto|apply refines_refl].
Qed.

Lemma vcond_true a b : vcond (Rv 1) a b = a.
Proof. cbn. vdec; auto; lra. Qed.
Lemma vcond_false a b : vcond (Rv 0) a b = b.
Proof. cbn. vdec; auto; lra. Qed.

Definition vmax (a b : val) : val := match a, b with Rv x, Rv y => Rv (Rmax x y) | _, _ => Top end.
Definition vmin (a b : val) : val := match a, b with Rv x, Rv y => Rv (Rmin x y) | _, _ => Top end.

Lemma max_sound a b v : wf a -> wf b -> max_fn a b = Ok v -> sound v (vmax (ev a) (ev b)).
Proof.
  intros Ha Hb H. unfold max_fn in H. binv H. apply rel_sound in E; auto. destruct E as [_ [W V]].
  apply cond_sound in H; auto. destruct H as [W1 V1]. split; auto.
  destruct (ev a) as [p| |]; cbn; auto. destruct (ev b) as [q| |]; cbn; auto. cbn in V.
  unfold Rmax. destruct (Rlt_dec p q); cbn in V; rewrite V in V1; rewrite ?vcond_true, ?vcond_false in V1; cbn in V1; rewrite V1; vdec; f_equal; lra.
Qed.

Lemma min_sound a b v : wf a -> wf b -> min_fn a b = Ok v -> sound v (vmin (ev a) (ev b)).
Proof.
  intros Ha Hb H. unfold min_fn in H. binv H. apply rel_sound in E; auto. destruct E as [_ [W V]].
  apply cond_sound in H; auto. destruct H as [W1 V1]. split; auto.
  destruct (ev a) as [p| |]; cbn; auto. destruct (ev b) as [q| |]; cbn; auto. cbn in V.
  unfold Rmin. destruct (Rlt_dec q p); cbn in V; rewrite V in V1; rewrite ?vcond_true, ?vcond_false in V1; cbn in V1; rewrite V1; vdec; f_equal; lra.
Qed.

Lemma iverson_sound c v : is_bool c = true -> wf c -> iverson_fn c = Ok v -> sound v (ev c).
Proof.
  intros Hb Hc H. destruct c; try discriminate Hb; injection H as <-.
  - split; [destruct b; unfold ExprSpec.wf; unfold_range; lia|]. destruct b; reflexivity.
  - split; [cbn; auto|]. apply refines_refl.
Qed.

(** Re-creating a call through the simplifying constructors. *)
Lemma create_sound f l v : Forall wf l ->
  (f = Flog -> Forall (fun a => determine_set a = real_positive -> forall x, ev a = Rv x -> 1 < x) l) ->
  create_fn I n f l = Ok v -> sound v (vfun f (map ev l)).
Proof.
  intros Hl Hlog H.
  destruct l as [|e l]; [destruct f; discriminate H|].
  pose proof (Forall_inv Hl) as He.
  assert (R1 : forall w, sound w (vfun f [ev e]) -> f <> Fatan2 -> sound w (vfun f (map ev (e :: l)))).
  { intros w Hw Hn. destruct l; [exact Hw|]. destruct Hw as [W _]. split; auto.
    cbn [map]. destruct f; try contradiction; destruct (ev e); exact Logic.I. }
  destruct f; try (apply R1; [|discriminate]); cbn [create_fn] in H.
  1-3,7-9: eapply trig_sound; eauto; reflexivity.
  - apply acos_sound; auto.
  - eapply odd_inverse_sound; eauto.
  - eapply odd_inverse_sound; eauto.
  - apply acosh_sound; auto.
  - apply asinh_sound; auto.
  - apply atanh_sound; auto.
  - apply log_sound; auto. specialize (Hlog eq_refl). exact (Forall_inv Hlog).
  - apply exp_sound; auto.
  - apply abs_sound; auto.
  - apply signum_sound; auto.
  - apply floor_sound; auto.
  - destruct l as [|x l]; [discriminate|]. pose proof (Forall_inv (Forall_inv_tail Hl)) as Hx.
    apply atan2_sound in H; auto. destruct l; [exact H|]. destruct H as [W _]. split; auto.
    cbn [map]. destruct (ev e), (ev x); exact Logic.I.
Qed.

Lemma deriv_sound f x k v : wf f -> wf x -> deriv_fn f x k = Ok v -> wf v.
Proof.
  intros Hf Hx H. unfold deriv_fn in H. destruct (k <=? 0)%Z; [discriminate|]. destruct (negb (is_diff_arg x)); [discriminate|].
  destruct f; try (injection H as <-; cbn; auto; fail). destruct (ident f2 x); injection H as <-; cbn in *; tauto.
Qed.
Lemma subst_wf i t r v : wf i -> wf t -> wf r -> subst_fn i t r = Ok v -> wf v.
Proof.
  intros Hi Ht Hr' H. unfold subst_fn in H. destruct (is_num i); [injection H as <-; auto|]. destruct (is_num t); [discriminate|].
  destruct (ident t r); injection H as <-; cbn; auto.
Qed.
Lemma stop_sound a v : wf a -> stop_fn a = Ok v -> sound v (ev a).
Proof. intros Ha H. unfold stop_fn in H. destruct a; injection H as <-; (split; [cbn in *; auto|cbn [eval]; apply refines_refl]). Qed.
Lemma uneval_sound a v : wf a -> uneval_fn a = Ok v -> sound v (ev a).
Proof. intros Ha H. unfold uneval_fn in H. destruct a; injection H as <-; (split; [cbn in *; auto|cbn [eval]; apply refines_refl]). Qed.

End Sound.
