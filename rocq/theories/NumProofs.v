(** Successful integer and rational operations, with rationals as real numbers. *)
From Coq Require Import String List ZArith Reals Bool Permutation Lra Lia QArith Qreals.
From Verif Require Import Outcome CheckedIntModel CheckedIntSpec CheckedIntProofs RationalModel RationalSpec RationalProofs
  IntUtilsModel IntUtilsProofs IntFloatModel ExprModel ExprSpec ValProofs.
Import ListNotations.
Open Scope Z_scope.

Lemma bind_ok {A B} (m : outcome A) (f : A -> outcome B) b :
  bind m f = Ok b -> exists a, m = Ok a /\ f a = Ok b.
Proof. destruct m; cbn; try discriminate. eauto. Qed.

Ltac binv H :=
  let a := fresh "x" in let E := fresh "E" in
  apply bind_ok in H; destruct H as [a [E H]].

Lemma noexcept_ok {A} (m : outcome A) a : noexcept m = Ok a -> m = Ok a.
Proof. destruct m; cbn; congruence. Qed.

Lemma ck_mul_inv a b c : in_i64 a -> in_i64 b -> ck_mul a b = Ok c -> c = a * b /\ in_i64 c.
Proof. intros Ha Hb E. destruct (ck_mul_cases a b Ha Hb) as [[H1 H2]|[H1 H2]]; rewrite H2 in E; [|discriminate].
  injection E as <-; auto. Qed.
Lemma ck_add_inv a b c : in_i64 a -> in_i64 b -> ck_add a b = Ok c -> c = a + b /\ in_i64 c.
Proof. intros Ha Hb E. destruct (ck_add_cases a b Ha Hb) as [[H1 H2]|[H1 H2]]; rewrite H2 in E; [|discriminate].
  injection E as <-; auto. Qed.
Lemma ck_sub_inv a b c : in_i64 a -> in_i64 b -> ck_sub a b = Ok c -> c = a - b /\ in_i64 c.
Proof. intros Ha Hb E. destruct (ck_sub_cases a b Ha Hb) as [[H1 H2]|[H1 H2]]; rewrite H2 in E; [|discriminate].
  injection E as <-; auto. Qed.
Lemma ck_neg_inv a c : in_i64 a -> ck_neg a = Ok c -> c = - a /\ in_i64 c.
Proof.
  intros Ha E. destruct (ck_neg_spec a Ha) as [H1 H2]. destruct (in_dec (- a)).
  - rewrite H1 in E by auto. injection E as <-; auto.
  - rewrite H2 in E by tauto. discriminate.
Qed.
Lemma ck_abs_inv a c : in_i64 a -> ck_abs a = Ok c -> c = Z.abs a /\ in_i64 c.
Proof.
  intros Ha E. destruct (ck_abs_spec a Ha) as [H1 H2]. destruct (in_dec (Z.abs a)).
  - rewrite H1 in E by auto. injection E as <-; auto.
  - rewrite H2 in E by tauto. discriminate.
Qed.
Lemma integer_power_inv b e c : in_i64 b -> in_i64 e -> integer_power b e = Ok c ->
  c = b ^ e /\ in_i64 c /\ 0 <= e.
Proof.
  intros Hb He E. destruct (integer_power_spec b e Hb He) as [H1 H2].
  destruct (Z_le_gt_dec 0 e) as [H0|H0].
  - destruct (in_dec (b ^ e)).
    + rewrite H1 in E by auto. injection E as <-; auto.
    + rewrite H2 in E by tauto. discriminate.
  - rewrite H2 in E by lia. discriminate.
Qed.
Open Scope R_scope.

Lemma ratQ_val r : (0 < den r)%Z -> rat_val r = Q2R (ratQ r).
Proof.
  intros H. unfold rat_val, ratQ, frac, Q2R, Rdiv. cbn [Qnum Qden]. rewrite Z2Pos.id by lia. reflexivity.
Qed.

Lemma frac_val n d : (0 < d)%Z -> Q2R (frac n d) = IZR n / IZR d.
Proof. intros. unfold frac, Q2R, Rdiv; cbn [Qnum Qden]. rewrite Z2Pos.id by lia. reflexivity. Qed.

Lemma IZR_neq z : (z <> 0)%Z -> IZR z <> 0.
Proof. intros H E. apply H. now apply eq_IZR. Qed.

Lemma rat_make_inv n d r : in_i64 n -> in_i64 d -> d <> 0%Z -> rat_make n d = Ok r ->
  canon r /\ rat_val r = IZR n / IZR d.
Proof.
  intros Hn Hd H0 E.
  destruct (Z.eq_dec n INT64_MIN) as [H1|H1]; [rewrite (rat_make_min n d) in E by auto; discriminate|].
  destruct (Z.eq_dec d INT64_MIN) as [H2|H2]; [rewrite (rat_make_min n d) in E by auto; discriminate|].
  destruct (create_pair_ok n d Hn Hd H1 H2 H0) as (r' & E' & Hc & Hs). 
  rewrite E' in E. injection E as <-. split; [exact Hc|]. unfold same_fraction in Hs.
  destruct Hc as (Hp & _). unfold rat_val. apply (f_equal IZR) in Hs. rewrite !mult_IZR in Hs.
  assert (IZR d <> 0) by now apply IZR_neq. assert (IZR (den r') <> 0) by (apply IZR_neq; lia).
  apply Rmult_eq_reg_r with (IZR d); [|auto]. apply Rmult_eq_reg_r with (IZR (den r')); [|auto].
  field_simplify; auto. lra.
Qed.

Lemma rat_of_int_canon z : in_i64 z -> canon (rat_of_int z).
Proof.
  intros H. unfold canon, canonical, rat_of_int; cbn. repeat split; try (unfold_range; lia); try apply H.
  apply Z.gcd_1_r.
Qed.
Lemma rat_of_int_val z : rat_val (rat_of_int z) = IZR z.
Proof. unfold rat_val; cbn. field. Qed.

Lemma canon_den r : canon r -> IZR (den r) <> 0.
Proof. intros (H & _). apply IZR_neq; lia. Qed.
Lemma canon_in r : canon r -> in_i64 (num r) /\ in_i64 (den r) /\ (0 < den r)%Z.
Proof. intros (H & _ & H1 & H2). auto. Qed.

Lemma rat_add_inv a b r : canon a -> canon b -> rat_add a b = Ok r ->
  canon r /\ rat_val r = rat_val a + rat_val b.
Proof.
  intros Ha Hb E. destruct (canon_in a Ha) as (Na & Da & Pa), (canon_in b Hb) as (Nb & Db & Pb).
  unfold rat_add in E. binv E. binv E. binv E. binv E.
  apply ck_mul_inv in E0; auto. destruct E0 as [-> F0].
  apply ck_mul_inv in E1; auto. destruct E1 as [-> F1].
  apply ck_add_inv in E2; auto. destruct E2 as [-> F2].
  apply ck_mul_inv in E3; auto. destruct E3 as [-> F3].
  apply rat_make_inv in E; auto; [|nia]. destruct E as [Hc Hv]. split; auto. rewrite Hv.
  unfold rat_val. rewrite plus_IZR, !mult_IZR.
  assert (IZR (den a) <> 0) by now apply canon_den. assert (IZR (den b) <> 0) by now apply canon_den.
  field; auto.
Qed.

Lemma rat_mul_inv a b r : canon a -> canon b -> rat_mul a b = Ok r ->
  canon r /\ rat_val r = rat_val a * rat_val b.
Proof.
  intros Ha Hb E. destruct (canon_in a Ha) as (Na & Da & Pa), (canon_in b Hb) as (Nb & Db & Pb).
  unfold rat_mul in E. binv E. binv E.
  apply ck_mul_inv in E0; auto. destruct E0 as [-> F0].
  apply ck_mul_inv in E1; auto. destruct E1 as [-> F1].
  apply rat_make_inv in E; auto; [|nia]. destruct E as [Hc Hv]. split; auto. rewrite Hv.
  unfold rat_val. rewrite !mult_IZR.
  assert (IZR (den a) <> 0) by now apply canon_den. assert (IZR (den b) <> 0) by now apply canon_den.
  field; auto.
Qed.

Lemma rat_mul_int_inv a z r : canon a -> in_i64 z -> rat_mul_int a z = Ok r ->
  canon r /\ rat_val r = rat_val a * IZR z.
Proof.
  intros Ha Hz E. destruct (canon_in a Ha) as (Na & Da & Pa).
  unfold rat_mul_int in E. binv E. apply ck_mul_inv in E0; auto. destruct E0 as [-> F0].
  apply rat_make_inv in E; auto; [|lia]. destruct E as [Hc Hv]. split; auto. rewrite Hv.
  unfold rat_val. rewrite !mult_IZR. assert (IZR (den a) <> 0) by now apply canon_den. field; auto.
Qed.

(** A canonical rational is an integer exactly when its denominator is 1. *)
Lemma canon_integer r : canon r -> (Z.rem (num r) (den r) = 0)%Z -> den r = 1%Z.
Proof.
  intros (Hd & Hg & _) H. apply Z.rem_divide in H; [|lia].
  assert (Hx : (den r | Z.gcd (num r) (den r))%Z) by (apply Z.gcd_greatest; auto; apply Z.divide_refl).
  rewrite Hg in Hx. apply Z.divide_1_r in Hx. lia.
Qed.

Lemma of_rat_inv r e : canon r -> of_rat r = Ok e ->
  (forall s, wf s e) /\ (forall s, eval s e = Rv (rat_val r)) /\ is_num e = true /\
  (e = EInt (num r) /\ den r = 1%Z \/ e = ERat r /\ den r <> 1%Z).
Proof.
  intros Hc E. unfold of_rat in E. binv E. destruct (canon_in r Hc) as (Nr & Dr & Pr).
  unfold rat_try_int in E0. apply noexcept_ok in E0. binv E0. unfold rat_is_integer in E1.
  apply noexcept_ok in E1. binv E1. rewrite ck_rem_pos in E2 by auto. injection E2 as <-. injection E1 as <-.
  destruct (Z.eqb_spec (Z.rem (num r) (den r)) 0) as [Hz|Hz].
  - assert (H1 := canon_integer r Hc Hz). rewrite H1 in *. binv E0. injection E0 as <-. injection E as <-.
    rewrite ck_div_pos in E1 by (auto; lia). rewrite Z.quot_1_r in E1. injection E1 as <-.
    cbn. repeat split; auto; try apply Nr. intros. unfold rat_val; rewrite H1. f_equal. field.
  - injection E0 as <-. injection E as <-. assert (den r <> 1%Z).
    { intros H1. apply Hz. rewrite H1. apply Z.rem_1_r. }
    cbn. repeat split; auto; apply Hc.
Qed.

(** ** Constant coefficients *)
Definition cval (c : coeff) : val :=
  match c with
  | CInt z => Rv (IZR z)
  | CRat q => Rv (rat_val q)
  | _ => Top
  end.
Definition cwf (c : coeff) : Prop :=
  match c with
  | CInt z => in_i64 z
  | CRat q => canon q
  | _ => True
  end.

Lemma nonzero_float_wf f : cwf (nonzero_float f).
Proof. unfold nonzero_float. destruct (f64_eq f f64_zero); cbn; auto. unfold_range; lia. Qed.

Lemma add_num_inv a b c : cwf a -> cwf b -> add_num a b = Ok c ->
  cwf c /\ refines (cval c) (vadd (cval a) (cval b)).
Proof.
  intros Ha Hb E. destruct a, b; cbn in E; try (injection E as <-; cbn [cval]; rewrite ?vadd_top_r;
    split; [try exact Logic.I; apply nonzero_float_wf|cbn [vadd]; auto]; fail);
    binv E; injection E as <-; cbn [cval cwf] in *.
  - apply ck_add_inv in E0; auto. destruct E0 as [-> H]. split; auto. cbn. now rewrite plus_IZR.
  - apply rat_add_inv in E0; auto using rat_of_int_canon. destruct E0 as [H ->]. split; auto.
    cbn. rewrite rat_of_int_val. f_equal; ring.
  - apply rat_add_inv in E0; auto using rat_of_int_canon. destruct E0 as [H ->]. split; auto.
    cbn. rewrite rat_of_int_val. f_equal; ring.
  - apply rat_add_inv in E0; auto. destruct E0 as [H ->]. split; auto; reflexivity.
Qed.

Lemma mul_num_inv a b c : cwf a -> cwf b -> mul_num a b = Ok c ->
  cwf c /\ refines (cval c) (vmul (cval a) (cval b)).
Proof.
  intros Ha Hb E. destruct a, b; cbn in E; try (injection E as <-; cbn [cval]; rewrite ?vmul_top_r;
    split; [try exact Logic.I; try apply nonzero_float_wf;
            repeat match goal with |- context [if ?b then _ else _] => destruct b end; exact Logic.I
           |cbn [vmul]; auto]; fail);
    binv E; injection E as <-; cbn [cval cwf] in *.
  - apply ck_mul_inv in E0; auto. destruct E0 as [-> H]. split; auto. cbn. now rewrite mult_IZR.
  - apply rat_mul_inv in E0; auto using rat_of_int_canon. destruct E0 as [H ->]. split; auto.
    cbn. rewrite rat_of_int_val. f_equal; ring.
  - apply rat_mul_inv in E0; auto using rat_of_int_canon. destruct E0 as [H ->]. split; auto.
    cbn. rewrite rat_of_int_val. f_equal; ring.
  - apply rat_mul_inv in E0; auto. destruct E0 as [H ->]. split; auto; reflexivity.
Qed.

Lemma of_float_wf {s} f : wf s (of_float f).
Proof. unfold of_float. destruct (BinarySingleNaN.is_nan f), (BinarySingleNaN.is_finite f); exact Logic.I. Qed.
Lemma of_float_val s f : eval s (of_float f) = Top.
Proof. unfold of_float. destruct (BinarySingleNaN.is_nan f), (BinarySingleNaN.is_finite f); reflexivity. Qed.

Lemma coeff_of_inv {s0} e c : wf s0 e -> coeff_of e = Some c -> cwf c /\ forall s, eval s e = cval c.
Proof. destruct e; cbn; try discriminate; intros H E; injection E as <-; cbn; tauto. Qed.

Lemma expr_of_inv c e : cwf c -> expr_of c = Ok e ->
  (forall s, wf s e) /\ (forall s, eval s e = cval c) /\ coeff_of e <> None /\ (is_undefined e = true -> cval c = Top) /\
  (is_zero e = true -> cval c = Rv 0) /\ (is_one e = true -> cval c = Rv 1).
Proof.
  intros Hc E.
  assert (H : (forall s, wf s e) /\ (forall s, eval s e = cval c) /\ coeff_of e <> None).
  { destruct c; cbn in E.
    - injection E as <-. cbn. repeat split; auto; try apply Hc; discriminate.
    - destruct (of_rat_inv r e Hc E) as (H1 & H2 & H3 & H4). repeat split; auto. destruct e; discriminate.
    - injection E as <-. split; [intros; apply of_float_wf|]. split; [intros; apply of_float_val|].
      unfold of_float. destruct (BinarySingleNaN.is_nan f), (BinarySingleNaN.is_finite f); discriminate.
    - injection E as <-. repeat split; discriminate.
    - injection E as <-. repeat split; discriminate. }
  destruct H as (H1 & H2 & H3). repeat split; auto; intros H;
    rewrite <- (H2 (mk_env (fun _ => 0) (fun _ _ => 0))); destruct e; try discriminate H; auto;
    cbn in H; apply Z.eqb_eq in H; subst; reflexivity.
Qed.
