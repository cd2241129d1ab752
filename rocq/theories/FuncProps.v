(** Properties of the built-in functions, comparisons and conditionals. *)
From Coq Require Import String List ZArith Reals Bool Permutation Lra Lia.
From Flocq Require Import Core IEEE754.BinarySingleNaN.
From Verif Require Import Outcome CheckedIntModel CheckedIntSpec CheckedIntProofs RationalModel RationalSpec RationalProofs IntUtilsModel IntFloatModel IntFloatSpec IntFloatProofs
  ExprModel ExprSpec ValProofs ExprProofs NumProofs BuildModel BuildProofs PowProofs BuildProps OrderProofs FuncModel FuncProofs.
Import ListNotations.
Open Scope R_scope.

(** ** C09: trigonometric functions of rational multiples of pi *)
(** The expression q * pi. *)
Definition pi_multiple (q : rat) : expr :=
  if Z.eqb (num q) 0 then EInt 0
  else if Z.eqb (num q) (den q) then ESym Pi
  else EMul [if Z.eqb (den q) 1 then EInt (num q) else ERat q; ESym Pi].

Lemma pi_multiple_ok s q : canonical (num q) (den q) ->
  wf s (pi_multiple q) /\ eval s (pi_multiple q) = Rv (IZR (num q) / IZR (den q) * PI).
Proof.
  intros Hq. pose proof Hq as (P & G & Rn & Rd). assert (D : IZR (den q) <> 0) by (apply IZR_neq; lia). unfold pi_multiple.
  destruct (Z.eqb_spec (num q) 0) as [Z0|Z0].
  { split; [unfold wf; unfold_range; lia|]. rewrite Z0. cbn. f_equal. field. auto. }
  destruct (Z.eqb_spec (num q) (den q)) as [Z1|Z1].
  { split; [exact Logic.I|]. rewrite Z1. cbn. f_equal. field. auto. }
  destruct (Z.eqb_spec (den q) 1) as [D1|D1].
  - split; [|rewrite D1; cbn; f_equal; field]. cbn. repeat split; auto; try lia.
    all: try (unfold_range; lia). constructor; [|constructor; auto]. cbn. now apply Z.eqb_neq.
  - split; [|unfold eval, vprod, rat_val; cbn; f_equal; ring]. cbn. repeat split; auto; try lia; unfold_range; lia.
Qed.

Theorem C09_cos_exact : forall I n k s q v,
  impl_ok I -> env_ok s -> canonical (num q) (den q) -> trig I n k Fcos (pi_multiple q) = Ok v ->
  eval s v = Rv (cos (IZR (num q) / IZR (den q) * PI)).
Proof.
  intros I n k s q v HI Hs Hq H. destruct (pi_multiple_ok s q Hq) as [W V].
  destruct (trig_sound I HI s Hs n k Fcos _ v eq_refl W H) as [_ R]. rewrite V in R. exact R.
Qed.
Print Assumptions C09_cos_exact.
Example C09_cos_exact_ex :
  trig impl_ex 10 10 Fcos (pi_multiple (mk_rat 7 2)) = Ok (EInt 0) /\
  trig impl_ex 10 10 Fcos (pi_multiple (mk_rat (-5) 1)) = Ok (EInt (-1)) /\
  trig impl_ex 10 10 Fcos (pi_multiple (mk_rat 17 4)) = Ok (EFun Fcos [EMul [ERat (mk_rat 1 4); ESym Pi]]).
Proof. repeat split; vm_compute; reflexivity. Qed.

Theorem C09_sin_exact : forall I n k s q v,
  impl_ok I -> env_ok s -> canonical (num q) (den q) -> trig I n k Fsin (pi_multiple q) = Ok v ->
  eval s v = Rv (sin (IZR (num q) / IZR (den q) * PI)).
Proof.
  intros I n k s q v HI Hs Hq H. destruct (pi_multiple_ok s q Hq) as [W V].
  destruct (trig_sound I HI s Hs n k Fsin _ v eq_refl W H) as [_ R]. rewrite V in R. exact R.
Qed.
Print Assumptions C09_sin_exact.
Example C09_sin_exact_ex :
  trig impl_ex 10 10 Fsin (pi_multiple (mk_rat 7 2)) = Ok (EInt (-1)) /\
  trig impl_ex 10 10 Fsin (pi_multiple (mk_rat 5 2)) = Ok (EInt 1) /\
  trig impl_ex 10 10 Fsin (pi_multiple (mk_rat 3 1)) = Ok (EInt 0) /\
  trig impl_ex 10 10 Fsin (pi_multiple (mk_rat (-17) 4)) = Ok (EFun Fsin [EMul [ERat (mk_rat (-1) 4); ESym Pi]]).
Proof. repeat split; vm_compute; reflexivity. Qed.

Theorem C09_tan_exact : forall I n k s q v,
  impl_ok I -> env_ok s -> canonical (num q) (den q) -> trig I n k Ftan (pi_multiple q) = Ok v ->
  cos (IZR (num q) / IZR (den q) * PI) <> 0 ->
  eval s v = Rv (tan (IZR (num q) / IZR (den q) * PI)).
Proof.
  intros I n k s q v HI Hs Hq H C. destruct (pi_multiple_ok s q Hq) as [W V].
  destruct (trig_sound I HI s Hs n k Ftan _ v eq_refl W H) as [_ R]. rewrite V in R. cbn in R.
  destruct (Req_EM_T _ _) in R; [contradiction|exact R].
Qed.
Print Assumptions C09_tan_exact.
Example C09_tan_exact_ex :
  trig impl_ex 10 10 Ftan (pi_multiple (mk_rat 7 1)) = Ok (EInt 0) /\
  trig impl_ex 10 10 Ftan (pi_multiple (mk_rat 3 4)) = Ok (EFun Ftan [EMul [ERat (mk_rat (-1) 4); ESym Pi]]).
Proof. repeat split; vm_compute; reflexivity. Qed.

(** A multiple of pi/2 reduces to one of four angles. *)
Lemma quarter_turns q m : canonical (num q) (den q) -> (den q = 1 \/ den q = 2)%Z -> mod_pi_rational q = Ok m ->
  m = mk_rat 0 1 \/ m = mk_rat 1 1 \/ m = mk_rat 1 2 \/ m = mk_rat (-1) 2.
Proof.
  intros Hq Hd H. destruct (mod_pi_val q m Hq H) as (Hm & B & k & V).
  assert (D : exists j, rat_val m = IZR j / 2).
  { unfold rat_val in V at 1. destruct Hd as [D|D]; rewrite D in V.
    - exists (2 * (num q - 2 * k))%Z. rewrite mult_IZR, minus_IZR, mult_IZR. lra.
    - exists (num q - 4 * k)%Z. rewrite minus_IZR, mult_IZR. lra. }
  destruct D as [j Hj].
  assert (Pm : 0 < IZR (den m)) by (apply (IZR_lt 0); apply Hm).
  assert (X : IZR (2 * num m) = IZR (j * den m)).
  { rewrite !mult_IZR. unfold rat_val in Hj. apply Rmult_eq_compat_r with (r := 2 * IZR (den m)) in Hj. field_simplify in Hj; lra. }
  apply eq_IZR in X. assert (P : (0 < den m)%Z) by apply Hm.
  assert (Hj2 : (-2 < j <= 2)%Z) by nia.
  assert (C : forall a b, canonical a b -> IZR a / IZR b = IZR j / 2 -> m = mk_rat a b).
  { intros a b Hab E. apply canon_val_eq; auto. rewrite Hj, <- E. reflexivity. }
  assert (K : (j = -1 \/ j = 0 \/ j = 1 \/ j = 2)%Z) by lia.
  destruct K as [->|[->|[->| ->]]].
  - right; right; right. apply C; [repeat split; unfold_range; cbn; lia|field].
  - left. apply C; [repeat split; unfold_range; cbn; lia|field].
  - right; right; left. apply C; [repeat split; unfold_range; cbn; lia|field].
  - right; left. apply C; [repeat split; unfold_range; cbn; lia|field].
Qed.

Lemma pi_multiple_factor I q : canonical (num q) (den q) -> num q <> 0%Z ->
  has_imag (pi_multiple q) = false /\ exists cm, as_coeff_and_mul I (pi_multiple q) = Ok cm /\ pi_factor cm = Some q.
Proof.
  intros Hq Z0. unfold pi_multiple. destruct (Z.eqb_spec (num q) 0) as [?|_]; [contradiction|].
  destruct (Z.eqb_spec (num q) (den q)) as [Z1|Z1].
  { split; [reflexivity|]. eexists. split; [reflexivity|]. cbn. f_equal. destruct q as [a b]. cbn in *.
    destruct Hq as (P & G & _). cbn in P, G. subst. rewrite Z.gcd_diag in G. unfold rat_of_int. f_equal; lia. }
  destruct (Z.eqb_spec (den q) 1) as [D1|D1].
  - split; [reflexivity|]. eexists. split; [reflexivity|]. cbn. f_equal. destruct q as [a b]. cbn in *. now subst.
  - split; [reflexivity|]. eexists. split; [reflexivity|]. reflexivity.
Qed.

(** Every multiple of pi/2 is folded to an integer by cos and sin, so the exact values above are constants. *)
Theorem C09_quarter_turns_folded : forall I n k q,
  canonical (num q) (den q) -> (den q = 1 \/ den q = 2)%Z ->
  exists c d, trig I n (S k) Fcos (pi_multiple q) = Ok (EInt c) /\ trig I n (S k) Fsin (pi_multiple q) = Ok (EInt d) /\
    IZR c = cos (IZR (num q) / IZR (den q) * PI) /\ IZR d = sin (IZR (num q) / IZR (den q) * PI).
Proof.
  intros I n k q Hq Hd.
  assert (S0 : forall x y, Rv x = Rv y -> x = y) by (intros x y E; congruence).
  destruct (Z.eq_dec (num q) 0) as [Z0|Z0].
  { exists 1%Z, 0%Z. unfold pi_multiple. rewrite Z0. cbn [Z.eqb]. repeat split; try reflexivity.
    - replace (0 / IZR (den q) * PI) with 0 by (unfold Rdiv; ring). now rewrite cos_0.
    - replace (0 / IZR (den q) * PI) with 0 by (unfold Rdiv; ring). now rewrite sin_0. }
  destruct (pi_multiple_factor I q Hq Z0) as (Hi & cm & E & F).
  destruct (mod_pi_rational_spec q Hq) as (m & Em & _).
  destruct (mod_pi_val q m Hq Em) as (_ & _ & j & V).
  cbn [trig]. rewrite Hi. unfold cos_body, sin_body. rewrite E. cbn [bind]. rewrite F, Em. cbn [bind].
  assert (CV : cos (IZR (num q) / IZR (den q) * PI) = cos (rat_val m * PI)).
  { fold (rat_val q). rewrite V. replace ((rat_val m + 2 * IZR j) * PI) with (rat_val m * PI + 2 * IZR j * PI) by ring. apply cos_period_Z. }
  assert (SV : sin (IZR (num q) / IZR (den q) * PI) = sin (rat_val m * PI)).
  { fold (rat_val q). rewrite V. replace ((rat_val m + 2 * IZR j) * PI) with (rat_val m * PI + 2 * IZR j * PI) by ring. apply sin_period_Z. }
  rewrite CV, SV.
  destruct (quarter_turns q m Hq Hd Em) as [->|[->|[->| ->]]]; cbn; unfold rat_val; cbn [num den].
  - exists 1%Z, 0%Z. repeat split. + replace (0 / 1 * PI) with 0 by field. now rewrite cos_0. + replace (0 / 1 * PI) with 0 by field. now rewrite sin_0.
  - exists (-1)%Z, 0%Z. repeat split. + replace (1 / 1 * PI) with PI by field. now rewrite cos_PI. + replace (1 / 1 * PI) with PI by field. now rewrite sin_PI.
  - exists 0%Z, 1%Z. repeat split. + replace (1 / 2 * PI) with (PI / 2) by field. now rewrite cos_PI2. + replace (1 / 2 * PI) with (PI / 2) by field. now rewrite sin_PI2.
  - exists 0%Z, (-1)%Z. repeat split. + replace (-1 / 2 * PI) with (- (PI / 2)) by field. now rewrite cos_neg, cos_PI2.
    + replace (-1 / 2 * PI) with (- (PI / 2)) by field. now rewrite sin_neg, sin_PI2.
Qed.
Print Assumptions C09_quarter_turns_folded.
Example C09_quarter_turns_folded_ex :
  trig impl_ex 0 1 Fcos (pi_multiple (mk_rat (2 ^ 62) 1)) = Ok (EInt 1) /\
  trig impl_ex 0 1 Fsin (pi_multiple (mk_rat (2 ^ 62 + 1) 2)) = Ok (EInt 1).
Proof. split; vm_compute; reflexivity. Qed.

Theorem C09_tan_pole : forall I n k q,
  impl_ok I -> canonical (num q) (den q) ->
  (trig I n (S k) Ftan (pi_multiple q) = Ok EInf <-> cos (IZR (num q) / IZR (den q) * PI) = 0).
Proof.
  intros I n k q HI Hq. split.
  - intros H. destruct (Req_dec (cos (IZR (num q) / IZR (den q) * PI)) 0) as [C|C]; auto.
    assert (Hs : env_ok (mk_env (fun _ => 1) (fun _ _ => 0))) by (intros v; cbn; destruct (var_set v); cbn; auto; lra).
    pose proof (C09_tan_exact I n _ _ q _ HI Hs Hq H C) as E. discriminate E.
  - intros C. destruct (cos_eq_0_0 _ C) as [j Hj].
    assert (P : (0 < den q)%Z) by apply Hq. assert (PR : 0 < IZR (den q)) by (apply (IZR_lt 0); auto).
    assert (X : IZR (2 * num q) = IZR ((2 * j + 1) * den q)).
    { rewrite !mult_IZR, plus_IZR, mult_IZR. pose proof PI_RGT_0 as Pp.
      assert (Y : IZR (num q) / IZR (den q) = IZR j + / 2) by (apply Rmult_eq_reg_r with PI; lra).
      apply Rmult_eq_compat_r with (r := 2 * IZR (den q)) in Y. field_simplify in Y; lra. }
    apply eq_IZR in X.
    assert (D : den q = 2%Z).
    { destruct Hq as (_ & G & _). assert (D2 : (den q | 2)%Z).
      { apply Z.gauss with (num q); [exists (2 * j + 1)%Z; lia|]. now rewrite Z.gcd_comm. }
      apply Z.divide_pos_le in D2 as D3; [|lia]. assert (den q <> 1)%Z by lia. lia. }
    assert (Z0 : num q <> 0%Z) by lia.
    destruct (pi_multiple_factor I q Hq Z0) as (Hi & cm & E & F).
    destruct (mod_pi_rational_spec q Hq) as (m & Em & _). destruct (mod_pi_val q m Hq Em) as (_ & _ & i & V).
    cbn [trig]. rewrite Hi. unfold tan_body. rewrite E. cbn [bind]. rewrite F, Em. cbn [bind].
    assert (NI : forall z, rat_val m <> IZR z).
    { intros z Hz. rewrite Hz in V. unfold rat_val in V. rewrite D in V.
      assert (Y : IZR (num q) = IZR (2 * (z + 2 * i))) by (rewrite mult_IZR, plus_IZR, mult_IZR; lra). apply eq_IZR in Y. lia. }
    destruct (quarter_turns q m Hq (or_intror D) Em) as [->|[->|[->| ->]]].
    + exfalso. apply (NI 0%Z). unfold rat_val; cbn. field.
    + exfalso. apply (NI 1%Z). unfold rat_val; cbn. field.
    + reflexivity.
    + reflexivity.
Qed.
Print Assumptions C09_tan_pole.
Example C09_tan_pole_ex :
  trig impl_ex 0 1 Ftan (pi_multiple (mk_rat (2 ^ 62 + 1) 2)) = Ok EInf /\
  trig impl_ex 0 1 Ftan (pi_multiple (mk_rat (2 ^ 62) 1)) = Ok (EInt 0).
Proof. split; vm_compute; reflexivity. Qed.

(** All built-in calls, whatever the argument: the result has the value of the function. *)
Theorem C09_functions_keep_value : forall I n s f l v,
  impl_ok I -> env_ok s -> Forall (wf s) l -> f <> Flog -> create_fn I n f l = Ok v ->
  refines (eval s v) (vfun f (map (eval s) l)) /\ wf s v.
Proof.
  intros I n s f l v HI Hs Hl Hf H. destruct (create_sound I HI s Hs n f l v Hl) as [W V]; auto. contradiction.
Qed.
Print Assumptions C09_functions_keep_value.
Example C09_functions_keep_value_ex :
  create_fn impl_ex 10 Fatan2 [EInt (-3); EInt 3] = Ok (EMul [ERat (mk_rat (-1) 4); ESym Pi]) /\
  create_fn impl_ex 10 Fcosh [EMul [EImag; vx]] = Ok (EFun Fcos [vx]) /\
  create_fn impl_ex 10 Fsin [EInt (-2)] = Ok (EMul [EInt (-1); EFun Fsin [EInt 2]]) /\
  create_fn impl_ex 10 Facos [EInt (-1)] = Ok (ESym Pi) /\
  create_fn impl_ex 10 Ftanh [EFun Fatanh [vx]] = Ok vx.
Proof. repeat split; vm_compute; reflexivity. Qed.

(** The same for logarithms, whose argument must exceed one where the analysis of number sets calls it positive. *)
Theorem C09_log_keeps_value : forall I n s e v,
  impl_ok I -> env_ok s -> wf s e ->
  (determine_set e = real_positive -> forall x, eval s e = Rv x -> 1 < x) ->
  log_fn I n e = Ok v -> forall x, eval s e = Rv x -> 0 < x -> eval s v = Rv (ln x).
Proof.
  intros I n s e v HI Hs He Hp H x Hx P. destruct (log_sound I HI s Hs n e v He Hp H) as [_ V]. rewrite Hx in V. cbn in V.
  destruct (Rlt_dec 0 x); [exact V|contradiction].
Qed.
Print Assumptions C09_log_keeps_value.
Example C09_log_keeps_value_ex :
  log_fn impl_ex 10 (ESym Euler) = Ok (EInt 1) /\ log_fn impl_ex 10 vx = Ok (EFun Flog [vx]) /\ log_fn impl_ex 10 (EInt 0) = Ok EUndef.
Proof. repeat split; vm_compute; reflexivity. Qed.

(** ** C20: comparisons, conditionals, iverson brackets *)
Definition holds (o : relop) (x y : R) : Prop :=
  match o with RLt => x < y | RLe => x <= y | REq => x = y end.

Theorem C20_comparison_exact : forall s o a b v x y,
  wf s a -> wf s b -> eval s a = Rv x -> eval s b = Rv y -> rel_fn o a b = Ok v ->
  (holds o x y -> eval s v = Rv 1) /\ (~ holds o x y -> eval s v = Rv 0).
Proof.
  intros s o a b v x y Ha Hb Hx Hy H. destruct (rel_sound s o a b v Ha Hb H) as [_ [_ V]]. rewrite Hx, Hy in V.
  destruct o; cbn in *; [destruct (Rlt_dec x y)|destruct (Rle_dec x y)|destruct (Req_EM_T x y)]; cbn in V; split; intros; try contradiction; auto.
Qed.
Print Assumptions C20_comparison_exact.
Example C20_comparison_exact_ex :
  rel_fn RLt (EInt 3) (ESym Pi) = Ok (EBool true) /\ rel_fn RLe (ERat (mk_rat 7 2)) (EInt 3) = Ok (EBool false) /\
  rel_fn REq (ESym Euler) (ESym Pi) = Ok (EBool false) /\ rel_fn REq vy vx = Ok (ERel REq vx vy) /\
  rel_fn RLt (ERat (mk_rat 22 7)) (ESym Pi) = Ok (ERel RLt (ERat (mk_rat 22 7)) (ESym Pi)).
Proof. repeat split; vm_compute; reflexivity. Qed.

(** A folded comparison is decided the same way by every assignment. *)
Theorem C20_comparison_folded : forall s o a b t x y,
  wf s a -> wf s b -> eval s a = Rv x -> eval s b = Rv y -> rel_fn o a b = Ok (EBool t) ->
  (t = true <-> holds o x y).
Proof.
  intros s o a b t x y Ha Hb Hx Hy H. destruct (C20_comparison_exact s o a b _ x y Ha Hb Hx Hy H) as [A B]. cbn in A, B.
  destruct t; split; intros Q; auto; try discriminate.
  - assert (N : holds o x y \/ ~ holds o x y).
    { destruct o; cbn; [destruct (Rlt_dec x y)|destruct (Rle_dec x y)|destruct (Req_EM_T x y)]; auto. }
    destruct N as [|N]; auto. apply B in N. injection N as N. lra.
  - apply A in Q. injection Q as Q. lra.
Qed.
Print Assumptions C20_comparison_folded.
Example C20_comparison_folded_ex :
  rel_fn RLe (EInt (-2)) (EInt (-2)) = Ok (EBool true) /\ rel_fn RLt (EInt (-2)) (EInt (-2)) = Ok (EBool false).
Proof. split; vm_compute; reflexivity. Qed.

(** Doubles: folding agrees with the exact order of the numbers they denote, also against 64-bit integers. *)
Theorem C20_double_comparison : forall o f g t,
  is_finite f = true -> is_finite g = true -> rel_fn o (EFlt f) (EFlt g) = Ok (EBool t) ->
  (t = true <-> holds o (B2R f) (B2R g)).
Proof.
  intros o f g t Hf Hg H. unfold rel_fn, rel_simplify in H. cbn [is_inf is_undefined orb less bind] in H. injection H as <-.
  assert (Lt : forall f g : f64, is_finite f = true -> is_finite g = true -> f64_lt f g = true <-> B2R f < B2R g).
  { intros p q Hp Hq. unfold f64_lt. rewrite Bltb_correct by auto. unfold Rlt_bool.
    destruct (Rcompare_spec (B2R p) (B2R q)); split; intros; try discriminate; auto; lra. }
  pose proof (Lt f g Hf Hg) as L1. pose proof (Lt g f Hg Hf) as L2.
  destruct (f64_lt f g), (f64_lt g f); destruct L1 as [L1 L1'], L2 as [L2 L2']; try specialize (L1 eq_refl); try specialize (L2 eq_refl);
  try (assert (~ B2R f < B2R g) by (intros Q; apply L1' in Q; discriminate)); try (assert (~ B2R g < B2R f) by (intros Q; apply L2' in Q; discriminate));
  destruct o; cbn; split; intros; try discriminate; auto; lra.
Qed.
Print Assumptions C20_double_comparison.
Example C20_double_comparison_ex :
  rel_fn RLe (EFlt (f64_of_Z 2)) (EFlt (f64_of_Z 3)) = Ok (EBool true) /\ rel_fn REq (EFlt (f64_of_Z 2)) (EFlt (f64_of_Z 3)) = Ok (EBool false).
Proof. split; vm_compute; reflexivity. Qed.

Theorem C20_integer_double_comparison : forall o i f t,
  in_i64 i -> is_finite f = true -> rel_fn o (EInt i) (EFlt f) = Ok (EBool t) ->
  (t = true <-> holds o (IZR i) (B2R f)).
Proof.
  intros o i f t Hi Hf H. unfold rel_fn, rel_simplify in H. cbn [is_inf is_undefined orb less] in H.
  destruct (less_int i f Lt) as [p| | | |] eqn:E1; try discriminate. destruct (less_int i f Gt) as [q| | | |] eqn:E2; try discriminate.
  cbn [bind] in H. injection H as <-. apply less_int_val in E1; auto. apply less_int_val in E2; auto. cbn in E1, E2.
  destruct p, q; destruct E1 as [L1 L1'], E2 as [L2 L2']; try specialize (L1 eq_refl); try specialize (L2 eq_refl);
  try (assert (~ IZR i < B2R f) by (intros Q; apply L1' in Q; discriminate)); try (assert (~ B2R f < IZR i) by (intros Q; apply L2' in Q; discriminate));
  destruct o; cbn; split; intros; try discriminate; auto; lra.
Qed.
Print Assumptions C20_integer_double_comparison.
Example C20_integer_double_comparison_ex :
  rel_fn RLt (EInt (2 ^ 53 + 1)) (EFlt (f64_of_Z (2 ^ 53))) = Ok (EBool false) /\
  rel_fn REq (EInt (2 ^ 53)) (EFlt (f64_of_Z (2 ^ 53))) = Ok (EBool true) /\
  rel_fn RLe (EFlt (f64_of_Z 2)) (EFlt (f64_of_Z 3)) = Ok (EBool true).
Proof. repeat split; vm_compute; reflexivity. Qed.

Theorem C20_conditional_exact : forall s c a b v,
  wf s c -> wf s a -> wf s b -> cond_fn c a b = Ok v ->
  (eval s c = Rv 1 -> refines (eval s v) (eval s a)) /\ (eval s c = Rv 0 -> refines (eval s v) (eval s b)) /\ wf s v.
Proof.
  intros s c a b v Hc Ha Hb H. destruct (cond_sound s c a b v Hc Ha Hb H) as [W V].
  split; [|split; auto]; intros E; rewrite E in V; rewrite ?vcond_true, ?vcond_false in V; exact V.
Qed.
Print Assumptions C20_conditional_exact.
Example C20_conditional_exact_ex :
  (let* c := rel_fn RLt (EInt 1) (EInt 2) in cond_fn c vx vy) = Ok vx /\
  (let* c := rel_fn RLt (EInt 2) (EInt 1) in cond_fn c vx vy) = Ok vy /\
  (let* c := rel_fn RLt vx vy in cond_fn c vp vp) = Ok vp /\
  (let* c := rel_fn RLt vx vy in cond_fn c vx vy) = Ok (ECond (ERel RLt vx vy) vx vy).
Proof. repeat split; vm_compute; reflexivity. Qed.

Theorem C20_iverson_exact : forall s o a b c v x y,
  wf s a -> wf s b -> eval s a = Rv x -> eval s b = Rv y -> rel_fn o a b = Ok c -> iverson_fn c = Ok v ->
  (holds o x y -> eval s v = Rv 1) /\ (~ holds o x y -> eval s v = Rv 0).
Proof.
  intros s o a b c v x y Ha Hb Hx Hy H Hv. destruct (rel_sound s o a b c Ha Hb H) as [Bc [Wc _]].
  destruct (iverson_sound s c v Bc Wc Hv) as [_ V]. destruct (C20_comparison_exact s o a b c x y Ha Hb Hx Hy H) as [A B].
  split; intros Q; [rewrite (A Q) in V|rewrite (B Q) in V]; exact V.
Qed.
Print Assumptions C20_iverson_exact.
Example C20_iverson_exact_ex :
  (let* c := rel_fn RLt (EInt 1) (EInt 2) in iverson_fn c) = Ok (EInt 1) /\
  (let* c := rel_fn REq vx vy in iverson_fn c) = Ok (EIver (ERel REq vx vy)).
Proof. split; vm_compute; reflexivity. Qed.

(** ** C46: sign, abs, floor, min, max *)
Theorem C46_abs_exact : forall I s e v x,
  wf s e -> eval s e = Rv x -> abs_fn I e = Ok v -> eval s v = Rv (Rabs x).
Proof. intros I s e v x He Hx H. destruct (abs_sound I s e v He H) as [_ V]. rewrite Hx in V. exact V. Qed.
Print Assumptions C46_abs_exact.
Example C46_abs_exact_ex :
  abs_fn impl_ex (EInt (-5)) = Ok (EInt 5) /\ abs_fn impl_ex (ERat (mk_rat (-7) 2)) = Ok (ERat (mk_rat 7 2)) /\
  abs_fn impl_ex (ESym Pi) = Ok (ESym Pi) /\ abs_fn impl_ex (EFun Fabs [vx]) = Ok (EFun Fabs [vx]) /\
  abs_fn impl_ex (EInt INT64_MIN) = Throws.
Proof. repeat split; vm_compute; reflexivity. Qed.

Theorem C46_sign_exact : forall s e v x,
  wf s e -> eval s e = Rv x -> signum_fn e = Ok v ->
  (0 < x -> eval s v = Rv 1) /\ (x = 0 -> eval s v = Rv 0) /\ (x < 0 -> eval s v = Rv (-1)).
Proof.
  intros s e v x He Hx H. destruct (signum_sound s e v He H) as [_ V]. rewrite Hx in V. cbn in V. rewrite V. unfold sign_R.
  repeat split; intros; vdec; try lra; reflexivity.
Qed.
Print Assumptions C46_sign_exact.
Example C46_sign_exact_ex :
  signum_fn (ERat (mk_rat (-7) 2)) = Ok (EInt (-1)) /\ signum_fn (EInt 0) = Ok (EInt 0) /\ signum_fn (ESym Euler) = Ok (EInt 1) /\
  signum_fn vx = Ok (EFun Fsign [vx]).
Proof. repeat split; vm_compute; reflexivity. Qed.

Theorem C46_floor_exact : forall s e v x,
  wf s e -> eval s e = Rv x -> floor_fn e = Ok v ->
  exists z, eval s v = Rv (IZR z) /\ IZR z <= x < IZR z + 1.
Proof.
  intros s e v x He Hx H. destruct (floor_sound s e v He H) as [_ V]. rewrite Hx in V. cbn in V.
  exists (Int_part x). split; auto. destruct (base_Int_part x). lra.
Qed.
Print Assumptions C46_floor_exact.
Example C46_floor_exact_ex :
  floor_fn (ERat (mk_rat (-7) 2)) = Ok (EInt (-4)) /\ floor_fn (ERat (mk_rat 7 2)) = Ok (EInt 3) /\
  floor_fn (ESym Euler) = Ok (EInt 2) /\ floor_fn (ESym Pi) = Ok (EInt 3) /\ floor_fn (EInt (-4)) = Ok (EInt (-4)).
Proof. repeat split; vm_compute; reflexivity. Qed.

Theorem C46_double_floor_exact : forall f v,
  floor_fn (EFlt f) = Ok v -> is_nan f = false ->
  exists z, v = EInt z /\ in_i64 z /\ IZR z <= B2R f < IZR z + 1.
Proof.
  intros f v H Hn. unfold floor_fn in H. rewrite Hn in H. binv H. injection H as <-.
  exists x. split; auto. split; [exact (f64_floor_range _ _ E)|]. destruct (f64_floor_val _ _ E) as [_ V].
  destruct (base_Int_part (B2R f)) as [A B]. rewrite V in A, B. lra.
Qed.
Print Assumptions C46_double_floor_exact.

(** Casting a floor beyond the 64-bit range is undefined behaviour (finding F11g). *)
Theorem C46_double_floor_refuted : exists f, is_finite f = true /\ floor_fn (EFlt f) = UB.
Proof. exists (f64_of_Z (2 ^ 70)). split; vm_compute; reflexivity. Qed.
Print Assumptions C46_double_floor_refuted.
Example C46_double_floor_exact_ex :
  floor_fn (EFlt (f64_div (f64_of_Z (-7)) (f64_of_Z 2))) = Ok (EInt (-4)) /\
  floor_fn (EFlt (f64_of_Z (2 ^ 62))) = Ok (EInt (2 ^ 62)).
Proof. split; vm_compute; reflexivity. Qed.

Theorem C46_double_sign_exact : forall f v,
  signum_fn (EFlt f) = Ok v -> is_finite f = true ->
  exists z, v = EInt z /\ (0 < B2R f -> z = 1%Z) /\ (B2R f = 0 -> z = 0%Z) /\ (B2R f < 0 -> z = (-1)%Z).
Proof.
  intros f v H Hf. unfold signum_fn in H. destruct (is_nan f) eqn:Hn; [destruct f; discriminate|]. injection H as <-.
  assert (Z : B2R f64_zero = 0) by reflexivity. assert (Fz : is_finite f64_zero = true) by reflexivity.
  exists (sign_f f). split; auto. unfold sign_f, f64_lt. rewrite !Bltb_correct by auto. rewrite Z. unfold Rlt_bool.
  repeat split; intros Hx; destruct (Rcompare_spec 0 (B2R f)); destruct (Rcompare_spec (B2R f) 0); try lra; reflexivity.
Qed.
Print Assumptions C46_double_sign_exact.
Example C46_double_sign_exact_ex :
  signum_fn (EFlt (f64_of_Z (-7))) = Ok (EInt (-1)) /\ signum_fn (EFlt f64_zero) = Ok (EInt 0).
Proof. split; vm_compute; reflexivity. Qed.

Theorem C46_max_exact : forall s a b v x y,
  wf s a -> wf s b -> eval s a = Rv x -> eval s b = Rv y -> max_fn a b = Ok v -> eval s v = Rv (Rmax x y).
Proof. intros s a b v x y Ha Hb Hx Hy H. destruct (max_sound s a b v Ha Hb H) as [_ V]. rewrite Hx, Hy in V. exact V. Qed.
Print Assumptions C46_max_exact.
Example C46_max_exact_ex :
  max_fn (EInt 3) (ESym Pi) = Ok (ESym Pi) /\ max_fn (ERat (mk_rat (-1) 2)) (ERat (mk_rat (-1) 3)) = Ok (ERat (mk_rat (-1) 3)) /\
  max_fn vx vy = Ok (ECond (ERel RLt vx vy) vy vx).
Proof. repeat split; vm_compute; reflexivity. Qed.

Theorem C46_min_exact : forall s a b v x y,
  wf s a -> wf s b -> eval s a = Rv x -> eval s b = Rv y -> min_fn a b = Ok v -> eval s v = Rv (Rmin x y).
Proof. intros s a b v x y Ha Hb Hx Hy H. destruct (min_sound s a b v Ha Hb H) as [_ V]. rewrite Hx, Hy in V. exact V. Qed.
Print Assumptions C46_min_exact.
Example C46_min_exact_ex :
  min_fn (EInt 3) (ESym Pi) = Ok (EInt 3) /\ min_fn vx vy = Ok (ECond (ERel RLt vy vx) vy vx).
Proof. split; vm_compute; reflexivity. Qed.
