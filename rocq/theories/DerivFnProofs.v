(** The rules for built-in functions, powers and products compute the derivative. *)
From Coq Require Import String List ZArith Reals Bool Permutation Lra Lia.
From Verif Require Import Outcome CheckedIntModel CheckedIntSpec CheckedIntProofs RationalModel RationalSpec RationalProofs
  IntFloatModel ExprModel ExprSpec ValProofs ExprProofs NumProofs BuildModel BuildProofs PowProofs FuncModel FuncProofs
  OrderSpec SumSpec DerivModel DerivSpec CalcProofs DerivZeroProofs.
Import ListNotations.
Open Scope R_scope.
Open Scope outcome_scope.

(** ** Calculus *)
Definition fn' (f : fn) (x : R) : R :=
  match f with
  | Fcos => - sin x
  | Fsin => cos x
  | Ftan => / (cos x * cos x)
  | Facos => - / sqrt (1 - x * x)
  | Fasin => / sqrt (1 - x * x)
  | Fatan => / (1 + x * x)
  | Fcosh => sinh x
  | Fsinh => cosh x
  | Ftanh => 1 - tanh x * tanh x
  | Facosh => / sqrt (x * x - 1)
  | Fasinh => / sqrt (x * x + 1)
  | Fatanh => / (1 - x * x)
  | Flog => / x
  | Fexp => exp x
  | Fabs => x / Rabs x
  | _ => 0
  end.

Lemma cos_near x : cos x <> 0 -> exists d, 0 < d /\ forall u, Rabs (u - x) < d -> cos u <> 0.
Proof.
  intros H. pose proof (Rabs_pos_lt _ H) as P.
  destruct (dlim_cont cos x (- sin x) (derivable_pt_lim_cos x) (Rabs (cos x)) P) as (d & Hd & C).
  exists d. split; auto. intros u Hu E. specialize (C u Hu). rewrite E, Rminus_0_l, Rabs_Ropp in C. lra.
Qed.

Lemma fn_hd f x : f <> Fatan2 -> fn_smooth f true x -> exists g,
  (exists d, 0 < d /\ forall u, Rabs (u - x) < d -> vfun1 f u = Rv (g u)) /\ derivable_pt_lim g x (fn' f x).
Proof.
  intros Hf Hs. destruct f; cbn [fn_smooth fn'] in *; try congruence.
  - exists cos. split; [now apply near_all|apply derivable_pt_lim_cos].
  - exists sin. split; [now apply near_all|apply derivable_pt_lim_sin].
  - exists tan. split; [|now apply dlim_tan]. eapply near_impl; [|apply (cos_near x Hs)].
    intros u Hu. cbn. destruct (Req_EM_T (cos u) 0); [contradiction|reflexivity].
  - exists acos. split; [|now apply dlim_acos]. destruct Hs as [A B].
    eapply near_impl; [|apply near_and; [apply (near_gt x (-1) A)|apply (near_lt x 1 B)]].
    intros u [Hu Hv]. cbn. vdec; auto; lra.
  - exists asin. split; [|now apply dlim_asin]. destruct Hs as [A B].
    eapply near_impl; [|apply near_and; [apply (near_gt x (-1) A)|apply (near_lt x 1 B)]].
    intros u [Hu Hv]. cbn. vdec; auto; lra.
  - exists atan. split; [now apply near_all|]. pose proof (derivable_pt_lim_atan x) as D. unfold Rsqr in D.
    replace (1 + x * x) with (1 + x ^ 2) by ring. exact D.
  - exists cosh. split; [now apply near_all|apply derivable_pt_lim_cosh].
  - exists sinh. split; [now apply near_all|apply derivable_pt_lim_sinh].
  - exists tanh. split; [now apply near_all|apply dlim_tanh].
  - exists (fun u => ln (u + sqrt (u * u - 1))). split; [|now apply dlim_acosh].
    eapply near_impl; [|apply (near_gt x 1 Hs)]. intros u Hu. cbn. vdec; auto; lra.
  - exists (fun u => ln (u + sqrt (u * u + 1))). split; [now apply near_all|apply dlim_asinh].
  - exists (fun u => / 2 * ln ((1 + u) / (1 - u))). split; [|now apply dlim_atanh]. destruct Hs as [A B].
    eapply near_impl; [|apply near_and; [apply (near_gt x (-1) A)|apply (near_lt x 1 B)]].
    intros u [Hu Hv]. cbn. vdec; auto; nra.
  - exists ln. split; [|now apply derivable_pt_lim_ln].
    eapply near_impl; [|apply (near_gt x 0 Hs)]. intros u Hu. cbn. vdec; auto; lra.
  - exists exp. split; [now apply near_all|apply derivable_pt_lim_exp].
  - exists Rabs. split; [now apply near_all|]. destruct (Rtotal_order x 0) as [L|[L|L]]; [|contradiction|].
    + replace (x / Rabs x) with (-1); [now apply Rabs_derive_2|]. rewrite Rabs_left by auto. field. lra.
    + replace (x / Rabs x) with 1; [now apply Rabs_derive_1|]. rewrite Rabs_right by lra. field. lra.
  - destruct Hs as [_ Hs]. exists (fun _ => sign_R x). split; [|apply derivable_pt_lim_const].
    destruct (Rtotal_order x 0) as [L|[L|L]]; [|contradiction|].
    + eapply near_impl; [|apply (near_lt x 0 L)]. intros u Hu. cbn. unfold sign_R. vdec; auto; lra.
    + eapply near_impl; [|apply (near_gt x 0 L)]. intros u Hu. cbn. unfold sign_R. vdec; auto; lra.
  - destruct Hs as [_ Hs]. exists (fun _ => IZR (Int_part x)). split; [|apply derivable_pt_lim_const].
    destruct (base_Int_part x) as [A B].
    assert (A' : IZR (Int_part x) < x).
    { destruct A as [A|A]; [exact A|]. exfalso. apply Hs. exists (Int_part x). auto. }
    assert (B' : x < IZR (Int_part x) + 1) by lra.
    eapply near_impl; [|apply near_and; [apply (near_gt _ _ A')|apply (near_lt _ _ B')]].
    intros u [Hu Hv]. cbn. do 2 f_equal. apply Int_part_unique; lra.
Qed.

(** atan2, away from the negative real axis and the origin. *)
Lemma atan_inv_pos u : 0 < u -> atan (/ u) = PI / 2 - atan u.
Proof. intros H. pose proof (atan_inv u H). lra. Qed.

Lemma atan2_pos_y y x : 0 < y -> atan2_R y x = PI / 2 - atan (x / y).
Proof.
  intros Hy. unfold atan2_R. destruct (Rlt_dec 0 x) as [H|H].
  - replace (y / x) with (/ (x / y)) by (field; lra). apply atan_inv_pos. now apply Rdiv_lt_0_compat.
  - destruct (Rlt_dec x 0) as [H1|H1].
    + destruct (Rle_dec 0 y) as [H2|H2]; [|lra].
      replace (y / x) with (- / ((- x) / y)) by (field; lra). rewrite atan_opp, atan_inv_pos by (apply Rdiv_lt_0_compat; lra).
      replace (- x / y) with (- (x / y)) by (field; lra). rewrite atan_opp. lra.
    + assert (x = 0) by lra. subst. destruct (Rlt_dec 0 y); [|lra]. replace (0 / y) with 0 by (field; lra). rewrite atan_0. lra.
Qed.
Lemma atan2_neg_y y x : y < 0 -> atan2_R y x = - (PI / 2) - atan (x / y).
Proof.
  intros Hy. unfold atan2_R. destruct (Rlt_dec 0 x) as [H|H].
  - replace (y / x) with (- / (x / - y)) by (field; lra). rewrite atan_opp, atan_inv_pos by (apply Rdiv_lt_0_compat; lra).
    replace (x / - y) with (- (x / y)) by (field; lra). rewrite atan_opp. lra.
  - destruct (Rlt_dec x 0) as [H1|H1].
    + destruct (Rle_dec 0 y) as [H2|H2]; [lra|].
      replace (y / x) with (/ (x / y)) by (field; lra). rewrite atan_inv_pos; [lra|].
      replace (x / y) with (- x / - y) by (field; lra). apply Rdiv_lt_0_compat; lra.
    + assert (x = 0) by lra. subst. destruct (Rlt_dec 0 y); [lra|]. replace (0 / y) with 0 by (field; lra). rewrite atan_0. lra.
Qed.

Lemma dlim_atan_quot F G x0 a b : derivable_pt_lim F x0 a -> derivable_pt_lim G x0 b -> G x0 <> 0 ->
  derivable_pt_lim (fun t => atan (F t / G t)) x0 ((a * G x0 - F x0 * b) / (F x0 * F x0 + G x0 * G x0)).
Proof.
  intros DF DG H. pose proof (derivable_pt_lim_div F G x0 a b DF DG H) as Dq.
  pose proof (derivable_pt_lim_comp (fun t => F t / G t) atan x0 _ _ Dq (derivable_pt_lim_atan (F x0 / G x0))) as D.
  replace ((a * G x0 - F x0 * b) / (F x0 * F x0 + G x0 * G x0)) with
    (/ (1 + (F x0 / G x0) ^ 2) * ((a * G x0 - b * F x0) / Rsqr (G x0))); [exact D|].
  unfold Rsqr. assert (0 < F x0 * F x0 + G x0 * G x0).
  { pose proof (Rle_0_sqr (F x0)) as P. unfold Rsqr in P. pose proof (Rsqr_pos_lt _ H) as Q. unfold Rsqr in Q. lra. }
  field. repeat split; auto; try lra; intros X; nra.
Qed.

Lemma atan2_hd F G x0 a b : derivable_pt_lim F x0 a -> derivable_pt_lim G x0 b -> 0 < G x0 \/ F x0 <> 0 ->
  has_deriv (fun t => vfun Fatan2 [Rv (F t); Rv (G t)]) x0 ((G x0 * a - F x0 * b) / (F x0 * F x0 + G x0 * G x0)).
Proof.
  intros DF DG H.
  assert (NZ : 0 < F x0 * F x0 + G x0 * G x0).
  { pose proof (Rle_0_sqr (F x0)) as P. pose proof (Rle_0_sqr (G x0)) as Q. destruct H as [H|H].
    - assert (0 < G x0 * G x0) by nra. unfold Rsqr in *. lra.
    - pose proof (Rsqr_pos_lt _ H). unfold Rsqr in *. lra. }
  assert (K : forall h, (exists d, 0 < d /\ forall t, Rabs (t - x0) < d -> (F t <> 0 \/ G t <> 0) /\ atan2_R (F t) (G t) = h t) ->
    derivable_pt_lim h x0 ((G x0 * a - F x0 * b) / (F x0 * F x0 + G x0 * G x0)) ->
    has_deriv (fun t => vfun Fatan2 [Rv (F t); Rv (G t)]) x0 ((G x0 * a - F x0 * b) / (F x0 * F x0 + G x0 * G x0))).
  { intros h (d & Hd & E) D. exists h, d. split; auto. split; auto. intros t Ht. destruct (E t Ht) as [E1 E2]. cbn.
    rewrite E2. vdec; auto. tauto. }
  assert (NearF : forall c, 0 < c -> exists d, 0 < d /\ forall t, Rabs (t - x0) < d -> Rabs (F t - F x0) < c).
  { intros c Hc. apply (dlim_cont F x0 a); auto. }
  assert (NearG : forall c, 0 < c -> exists d, 0 < d /\ forall t, Rabs (t - x0) < d -> Rabs (G t - G x0) < c).
  { intros c Hc. apply (dlim_cont G x0 b); auto. }
  destruct (Rtotal_order (F x0) 0) as [L|[L|L]].
  - apply (K (fun t => - (PI / 2) - atan (G t / F t))).
    + eapply near_impl; [|apply (NearF (- F x0)); lra]. cbn. intros t Ht. apply Rabs_def2 in Ht.
      split; [left; lra|]. apply atan2_neg_y. lra.
    + replace ((G x0 * a - F x0 * b) / (F x0 * F x0 + G x0 * G x0)) with (0 - (b * F x0 - G x0 * a) / (G x0 * G x0 + F x0 * F x0)).
      2:{ rewrite (Rplus_comm (G x0 * G x0)). field. lra. }
      apply (derivable_pt_lim_minus (fun _ => - (PI / 2))); [apply derivable_pt_lim_const|]. apply dlim_atan_quot; auto. lra.
  - assert (HG : 0 < G x0) by (destruct H; auto; contradiction). apply (K (fun t => atan (F t / G t))).
    + eapply near_impl; [|apply (NearG (G x0)); lra]. cbn. intros t Ht. apply Rabs_def2 in Ht.
      split; [right; lra|]. unfold atan2_R. destruct (Rlt_dec 0 (G t)); [auto|lra].
    + replace (G x0 * a - F x0 * b) with (a * G x0 - F x0 * b) by ring. apply dlim_atan_quot; auto. lra.
  - apply (K (fun t => PI / 2 - atan (G t / F t))).
    + eapply near_impl; [|apply (NearF (F x0)); lra]. cbn. intros t Ht. apply Rabs_def2 in Ht.
      split; [left; lra|]. apply atan2_pos_y. lra.
    + replace ((G x0 * a - F x0 * b) / (F x0 * F x0 + G x0 * G x0)) with (0 - (b * F x0 - G x0 * a) / (G x0 * G x0 + F x0 * F x0)).
      2:{ rewrite (Rplus_comm (G x0 * G x0)). field. lra. }
      apply (derivable_pt_lim_minus (fun _ => PI / 2)); [apply derivable_pt_lim_const|]. apply dlim_atan_quot; auto. lra.
Qed.

(** Powers. *)
Lemma pow_hd_pos F G x0 a b : derivable_pt_lim F x0 a -> derivable_pt_lim G x0 b -> 0 < F x0 ->
  has_deriv (fun t => vpow (Rv (F t)) (Rv (G t))) x0
    (G x0 * Rpower (F x0) (G x0 - 1) * a + Rpower (F x0) (G x0) * ln (F x0) * b).
Proof.
  intros DF DG H. destruct (dlim_cont F x0 a DF (F x0) H) as (d & Hd & C).
  exists (fun t => exp (G t * ln (F t))), d. split; auto. split.
  - intros t Ht. specialize (C t Ht). apply Rabs_def2 in C. rewrite vpow_pos by lra. reflexivity.
  - assert (DL : derivable_pt_lim (fun t => ln (F t)) x0 (/ F x0 * a)).
    { apply (derivable_pt_lim_comp F ln); auto. now apply derivable_pt_lim_ln. }
    pose proof (derivable_pt_lim_mult G (fun t => ln (F t)) x0 _ _ DG DL) as DM.
    pose proof (derivable_pt_lim_comp (fun t => G t * ln (F t)) exp x0 _ _ DM (derivable_pt_lim_exp _)) as D.
    replace (G x0 * Rpower (F x0) (G x0 - 1) * a + Rpower (F x0) (G x0) * ln (F x0) * b) with
      (exp (G x0 * ln (F x0)) * (b * ln (F x0) + G x0 * (/ F x0 * a))); [exact D|].
    fold (Rpower (F x0) (G x0)). unfold Rminus. rewrite Rpower_plus, Rpower_Ropp, Rpower_1 by auto. field. lra.
Qed.
Lemma pow_hd_int F x0 a z : derivable_pt_lim F x0 a -> F x0 <> 0 \/ (2 <= z)%Z ->
  has_deriv (fun t => vpow (Rv (F t)) (Rv (IZR z))) x0 (IZR z * powerRZ (F x0) (z - 1) * a).
Proof.
  intros DF H. assert (D : derivable_pt_lim (fun t => powerRZ (F t) z) x0 (IZR z * powerRZ (F x0) (z - 1) * a)).
  { apply (derivable_pt_lim_comp F (fun u => powerRZ u z)); auto. apply dlim_powerRZ. destruct H; [auto|right; lia]. }
  destruct (Z_lt_le_dec 0 z) as [P|P].
  - exists (fun t => powerRZ (F t) z), 1. split; [lra|]. split; auto. intros t _. destruct (Req_dec (F t) 0) as [E|E].
    + rewrite E, vpow_0_int, powerRZ_zero; auto.
    + now apply vpow_int.
  - assert (N : F x0 <> 0) by (destruct H; auto; lia). pose proof (Rabs_pos_lt _ N) as Q.
    destruct (dlim_cont F x0 a DF _ Q) as (d & Hd & C). exists (fun t => powerRZ (F t) z), d. split; auto. split; auto.
    intros t Ht. specialize (C t Ht). apply vpow_int. intros E. rewrite E, Rminus_0_l, Rabs_Ropp in C. lra.
Qed.

(** ** Values of the derivatives the visitor builds *)
Lemma vpow_m1 x : x <> 0 -> vpow (Rv x) (Rv (-1)) = Rv (/ x).
Proof. intros H. change (-1) with (IZR (-1)). rewrite vpow_int by auto. f_equal. unfold powerRZ. change (Pos.to_nat 1) with 1%nat. now rewrite pow_1. Qed.
Lemma vpow_2 x : vpow (Rv x) (Rv 2) = Rv (x * x).
Proof.
  destruct (Req_dec x 0) as [->|H]; [rewrite vpow_zero by lra; f_equal; ring|].
  change 2 with (IZR 2). rewrite vpow_int by auto. f_equal. unfold powerRZ. change (Pos.to_nat 2) with 2%nat. ring.
Qed.
Lemma vpow_m2 x : x <> 0 -> vpow (Rv x) (Rv (-2)) = Rv (/ (x * x)).
Proof. intros H. change (-2) with (IZR (-2)). rewrite vpow_int by auto. f_equal. unfold powerRZ. change (Pos.to_nat 2) with 2%nat. f_equal. ring. Qed.
Lemma vpow_half x : 0 < x -> vpow (Rv x) (Rv (/ 2)) = Rv (sqrt x).
Proof. intros H. rewrite vpow_pos by auto. now rewrite Rpower_sqrt. Qed.
Lemma vpow_mhalf x : 0 < x -> vpow (Rv x) (Rv (-1 / 2)) = Rv (/ sqrt x).
Proof.
  intros H. rewrite vpow_pos by auto. replace (-1 / 2) with (- / 2) by field. now rewrite Rpower_Ropp, Rpower_sqrt.
Qed.

Section Value.
Variable I : impl.
Hypothesis HI : impl_ok I.
Variable s : env.
Hypothesis Henv : env_ok s.
Notation ev := (eval s).
Notation wf := (ExprSpec.wf s).
Notation sound := (BuildProofs.sound s).
Variable n : nat.
Let Hr : spec_ops s (ops_n I n) := spec_ops_n I s HI Henv n.

Lemma add_sound l v : Forall wf l -> e_add I n l = Ok v -> sound v (vsum (map ev l)).
Proof. apply (s_add s _ Hr). Qed.
Lemma mul_sound l v : Forall wf l -> e_mul I n l = Ok v -> sound v (vprod (map ev l)).
Proof. apply (s_mul s _ Hr). Qed.
Lemma add2_sound a b v : wf a -> wf b -> e_add I n [a; b] = Ok v -> sound v (vadd (ev a) (ev b)).
Proof. intros Ha Hb H. apply add_sound in H; auto. cbn [map] in H. now rewrite vsum_two in H. Qed.
Lemma sub_sound a b v : wf a -> wf b -> e_sub I n a b = Ok v -> sound v (vadd (ev a) (vmul (Rv (-1)) (ev b))).
Proof.
  intros Ha Hb H. unfold e_sub in H. binv H. apply (e_neg_sound I HI s Henv) in E; auto. destruct E as [W V].
  apply add2_sound in H; auto. destruct H as [W' V']. split; auto. eapply refines_trans; [exact V'|].
  apply vadd_mono; auto.
Qed.
Lemma div_sound a b v : wf a -> wf b -> e_div I n a b = Ok v -> sound v (vmul (ev a) (vpow (ev b) (Rv (-1)))).
Proof.
  intros Ha Hb H. unfold e_div in H. binv H. apply (e_pow_sound I HI s Henv) in E; auto; [|apply (wf_numbers s)]. destruct E as [W V].
  apply (e_mul2_sound I HI s Henv) in H; auto. destruct H as [W' V']. split; auto. eapply refines_trans; [exact V'|].
  now apply vmul_refines_r.
Qed.

Lemma sound_val e v x : sound e v -> v = Rv x -> ev e = Rv x.
Proof. intros [_ V] ->. exact V. Qed.

Ltac wfc := first [assumption | cbn; unfold_range; lia | cbn; auto; fail].
Ltac step1 :=
  match goal with
  | H : bind _ _ = Ok _ |- _ => binv H
  | H : e_mul2 I n _ _ = Ok _ |- _ => apply (e_mul2_sound I HI s Henv) in H; [|wfc|wfc]; destruct H as [? H]
  | H : e_pow I n _ _ = Ok _ |- _ => apply (e_pow_sound I HI s Henv) in H; [|wfc|wfc]; destruct H as [? H]
  | H : e_neg I n _ = Ok _ |- _ => apply (e_neg_sound I HI s Henv) in H; [|wfc]; destruct H as [? H]
  | H : e_add I n [_; _] = Ok _ |- _ => apply add2_sound in H; [|wfc|wfc]; destruct H as [? H]
  | H : e_sub I n _ _ = Ok _ |- _ => apply sub_sound in H; [|wfc|wfc]; destruct H as [? H]
  | H : e_div I n _ _ = Ok _ |- _ => apply div_sound in H; [|wfc|wfc]; destruct H as [? H]
  | H : trig I n n _ _ = Ok _ |- _ => apply (trig_sound I HI s Henv n n) in H; [|reflexivity|wfc]; destruct H as [? H]
  | H : sqrt_fn I n _ = Ok _ |- _ => apply (sqrt_sound I HI s Henv n) in H; [|wfc]; destruct H as [? H]
  | H : abs_fn I _ = Ok _ |- _ => apply (abs_sound I s) in H; [|wfc]; destruct H as [? H]
  | H : signum_fn _ = Ok _ |- _ => apply (signum_sound s) in H; [|wfc]; destruct H as [? H]
  | H : floor_fn _ = Ok _ |- _ => apply (floor_sound s) in H; [|wfc]; destruct H as [? H]
  end.
Ltac steps := repeat step1.

Lemma wf_zero : wf (EInt 0). Proof. apply (wf_numbers s). Qed.
Hint Resolve wf_zero : core.

Lemma diff_fn_wf w abstract f args d v : wf (EVar w) -> wf (EFun f args) -> Forall wf d -> diff_fn I n (EVar w) abstract f args d = Ok v -> wf v.
Proof.
  intros Hx He Hd H. unfold diff_fn in H. destruct (forallb is_zero d); [injection H as <-; auto|].
  destruct args as [|a args]; [discriminate|]. destruct d as [|da d]; [discriminate|].
  assert (Hargs : Forall wf (a :: args)) by (apply wf_list; apply He).
  assert (Ha : wf a) by now inversion Hargs. assert (Hda : wf da) by now inversion Hd.
  destruct f.
  1-15: steps; assumption.
  - destruct abstract; [|injection H as <-; auto]. steps. apply (deriv_sound s) in H; auto.
  - destruct abstract; [|injection H as <-; auto]. steps. apply (deriv_sound s) in H; auto.
  - destruct args as [|b args]; [discriminate|]. destruct d as [|db d]; [discriminate|].
    assert (Hb : wf b) by (inversion Hargs as [|? ? ? X]; now inversion X).
    assert (Hdb : wf db) by (inversion Hd as [|? ? ? X]; now inversion X).
    steps; assumption.
Qed.

Ltac val E := first [rewrite E in *]; cbn [eval vmul vadd vfun vfun1] in *.

Lemma diff_fn_val w abstract f a da v x y : f <> Fatan2 -> wf (EFun f [a]) -> wf da -> ev a = Rv x -> ev da = Rv y ->
  fn_smooth f (negb abstract) x -> diff_fn I n (EVar w) abstract f [a] [da] = Ok v -> ev v = Rv (fn' f x * y).
Proof.
  intros Hf He Hda Va Vd Hs H. unfold diff_fn in H. cbn [forallb] in H.
  destruct (is_zero da && true) eqn:Ez.
  { injection H as <-. rewrite andb_true_r in Ez. apply is_zero_val in Ez. subst da. cbn [eval map vmul vadd vfun vfun1 refines] in Vd. injection Vd as <-. cbn. f_equal. ring. }
  assert (Ha : wf a) by apply He. clear Ez.
  assert (V2 : forall e, refines (ev e) (vpow (ev a) (ev (EInt 2))) -> ev e = Rv (x * x)).
  { intros e X. rewrite Va in X. cbn [eval] in X. rewrite vpow_2 in X. exact X. }
  destruct f; try congruence; cbn [fn_smooth fn'] in *.
  - steps. rewrite Va, Vd in *. cbn [eval map vmul vadd vfun vfun1 refines] in E. rewrite E in E0. cbn [eval map vmul vadd vfun vfun1 refines] in E0. rewrite E0 in H. cbn [eval map vmul vadd vfun vfun1 refines] in H. rewrite H. f_equal. ring.
  - steps. rewrite Va, Vd in *. cbn [eval map vmul vadd vfun vfun1 refines] in E. rewrite E in H. cbn [eval map vmul vadd vfun vfun1 refines] in H. rewrite H. f_equal.
  - steps. rewrite Va, Vd in *. cbn [eval map vmul vadd vfun vfun1 refines] in E. rewrite E in E0. cbn [eval] in E0. rewrite vpow_m2 in E0 by auto. cbn [eval map vmul vadd vfun vfun1 refines] in E0.
    rewrite E0 in H. cbn [eval map vmul vadd vfun vfun1 refines] in H. rewrite H. f_equal.
  - steps. apply V2 in E0. rewrite E0 in E1. cbn [eval map vmul vadd vfun vfun1 refines] in E1, E. rewrite vpow_m1 in E by lra. cbn [eval map vmul vadd vfun vfun1 refines] in E.
    rewrite Vd, E1, E in *. replace (-1 * / 2) with (-1 / 2) in * by field. rewrite vpow_mhalf in E2 by nra. cbn [eval map vmul vadd vfun vfun1 refines] in E2. rewrite E2 in E3. cbn [eval map vmul vadd vfun vfun1 refines] in E3. rewrite E3 in H. cbn [eval map vmul vadd vfun vfun1 refines] in H.
    rewrite H. f_equal. replace (1 + -1 * (x * x)) with (1 - x * x) by ring. ring.
  - steps. apply V2 in E0. rewrite E0 in E1. cbn [eval map vmul vadd vfun vfun1 refines] in E1, E. rewrite vpow_m1 in E by lra. cbn [eval map vmul vadd vfun vfun1 refines] in E.
    rewrite Vd, E1, E in *. replace (-1 * / 2) with (-1 / 2) in * by field. rewrite vpow_mhalf in E2 by nra. cbn [eval map vmul vadd vfun vfun1 refines] in E2. rewrite E2 in H. cbn [eval map vmul vadd vfun vfun1 refines] in H.
    rewrite H. f_equal. replace (1 + -1 * (x * x)) with (1 - x * x) by ring. ring.
  - steps. apply V2 in E. rewrite E in E0. cbn [eval map vmul vadd vfun vfun1 refines] in E0. rewrite Vd, E0 in H. rewrite vpow_m1 in H by nra. cbn [eval map vmul vadd vfun vfun1 refines] in H. rewrite H. f_equal.
    rewrite Rplus_comm. ring.
  - steps. rewrite Va, Vd in *. cbn [eval map vmul vadd vfun vfun1 refines] in E. rewrite E in H. cbn [eval map vmul vadd vfun vfun1 refines] in H. rewrite H. f_equal. ring.
  - steps. rewrite Va, Vd in *. cbn [eval map vmul vadd vfun vfun1 refines] in E. rewrite E in H. cbn [eval map vmul vadd vfun vfun1 refines] in H. rewrite H. f_equal. ring.
  - steps. assert (Vt : ev (EFun Ftanh [a]) = Rv (tanh x)) by (cbn; rewrite Va; reflexivity). rewrite Vt in E. cbn [eval] in E.
    rewrite vpow_2 in E. cbn [eval map vmul vadd vfun vfun1 refines] in E. rewrite E in E0. cbn [eval map vmul vadd vfun vfun1 refines] in E0. rewrite E0, Vd in H. cbn [eval map vmul vadd vfun vfun1 refines] in H. rewrite H. f_equal. ring.
  - steps. rewrite Va, Vd in *. cbn [eval map vmul vadd vfun vfun1 refines] in E, E0. rewrite E in E1. rewrite E0 in E2. rewrite vpow_half in E1 by lra. rewrite vpow_half in E2 by lra.
    cbn [eval map vmul vadd vfun vfun1 refines] in E1, E2. rewrite E1, E2 in E3. cbn [eval map vmul vadd vfun vfun1 refines] in E3. rewrite E3 in E4. cbn [eval] in E4.
    replace (sqrt (x + 1) * sqrt (x + -1 * 1)) with (sqrt (x * x - 1)) in E4.
    2:{ rewrite <- sqrt_mult by lra. f_equal. ring. }
    rewrite vpow_m1 in E4. 2:{ apply Rgt_not_eq, sqrt_lt_R0. nra. } cbn [eval map vmul vadd vfun vfun1 refines] in E4. rewrite E4 in H. cbn [eval map vmul vadd vfun vfun1 refines] in H. rewrite H. reflexivity.
  - steps. apply V2 in E0. rewrite E0 in E1. cbn [eval map vmul vadd vfun vfun1 refines] in E1, E. rewrite vpow_m1 in E by lra. cbn [eval map vmul vadd vfun vfun1 refines] in E.
    rewrite Vd, E1, E in *. replace (-1 * / 2) with (-1 / 2) in * by field. rewrite vpow_mhalf in E2 by nra. cbn [eval map vmul vadd vfun vfun1 refines] in E2. rewrite E2 in H. cbn [eval map vmul vadd vfun vfun1 refines] in H.
    rewrite H. f_equal.
  - steps. apply V2 in E. rewrite E in E0. cbn [eval map vmul vadd vfun vfun1 refines] in E0. rewrite E0 in E1. cbn [eval] in E1. rewrite vpow_m1 in E1 by nra. cbn [eval map vmul vadd vfun vfun1 refines] in E1.
    rewrite E1, Vd in H. cbn [eval map vmul vadd vfun vfun1 refines] in H. rewrite H. f_equal. replace (1 + -1 * (x * x)) with (1 - x * x) by ring. ring.
  - steps. rewrite Va in E. cbn [eval] in E. rewrite vpow_m1 in E by lra. cbn [eval map vmul vadd vfun vfun1 refines] in E. rewrite E, Vd in H. cbn [eval map vmul vadd vfun vfun1 refines] in H. rewrite H. reflexivity.
  - steps. assert (Vt : ev (EFun Fexp [a]) = Rv (exp x)) by (cbn; rewrite Va; reflexivity). rewrite Vt, Vd in H. cbn [eval map vmul vadd vfun vfun1 refines] in H. rewrite H. reflexivity.
  - steps. rewrite Va in *. cbn [eval map vmul vadd vfun vfun1 refines] in E. rewrite E in E0. rewrite vpow_m1 in E0 by now apply Rabs_no_R0. cbn [eval map vmul vadd vfun vfun1 refines] in E0. rewrite E0, Vd in H. cbn [eval map vmul vadd vfun vfun1 refines] in H.
    rewrite H. reflexivity.
  - destruct Hs as [Hs _]. destruct abstract; [discriminate|]. injection H as <-. cbn. f_equal. ring.
  - destruct Hs as [Hs _]. destruct abstract; [discriminate|]. injection H as <-. cbn. f_equal. ring.
Qed.

Lemma diff_atan2_val w abstract a b da db v y x y' x' : wf a -> wf b -> wf da -> wf db -> ev a = Rv y -> ev b = Rv x -> ev da = Rv y' -> ev db = Rv x' ->
  y * y + x * x <> 0 -> diff_fn I n (EVar w) abstract Fatan2 [a; b] [da; db] = Ok v -> ev v = Rv ((x * y' - y * x') / (y * y + x * x)).
Proof.
  intros Ha Hb Hda Hdb Va Vb Vda Vdb Hn H. unfold diff_fn in H. cbn [forallb] in H.
  destruct (is_zero da && (is_zero db && true)) eqn:Ez.
  { injection H as <-. rewrite andb_true_r in Ez. apply andb_true_iff in Ez. destruct Ez as [E1 E2]. apply is_zero_val in E1, E2. subst da db.
    cbn [eval map vmul vadd vfun vfun1 refines] in Vda, Vdb. injection Vda as <-. injection Vdb as <-. cbn. f_equal. field. auto. }
  steps. rewrite Va, Vb, Vda, Vdb in *. cbn [eval map vmul vadd vfun vfun1 refines] in E, E0. rewrite E, E0 in E1. cbn [eval map vmul vadd vfun vfun1 refines] in E1. cbn [eval map vmul vadd vfun vfun1 refines] in E2. rewrite E2 in E3. cbn [eval map vmul vadd vfun vfun1 refines] in E3.
  rewrite E3, E1 in E4. rewrite vpow_m1 in E4 by auto. cbn [eval map vmul vadd vfun vfun1 refines] in E4. cbn [eval map vmul vadd vfun vfun1 refines] in E5. rewrite E5, E1 in E6. rewrite vpow_m1 in E6 by auto. cbn [eval map vmul vadd vfun vfun1 refines] in E6.
  rewrite E4, E6 in H. cbn [eval map vmul vadd vfun vfun1 refines] in H. rewrite H. f_equal. field. auto.
Qed.
End Value.
