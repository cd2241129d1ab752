(** Differentiation is correct: the cached visitor. *)
From Coq Require Import String List ZArith Reals Bool Permutation Lra Lia.
From Verif Require Import Outcome CheckedIntModel CheckedIntSpec CheckedIntProofs RationalModel RationalSpec RationalProofs
  IntFloatModel ExprModel ExprSpec ValProofs ExprProofs NumProofs BuildModel BuildProofs PowProofs FuncModel FuncProofs
  OrderSpec SumSpec SumProofs DerivModel DerivSpec CalcProofs DerivZeroProofs DerivFnProofs.
Import ListNotations.
Open Scope R_scope.
Open Scope outcome_scope.

(** ** Evaluation in an updated assignment *)
Lemma ev_upd_same s v t : ev (upd s v t) v = t.
Proof. cbn. destruct (var_eq_dec v v); congruence. Qed.
Lemma ev_upd_other s v w t : v <> w -> ev (upd s v t) w = ev s w.
Proof. intros H. cbn. destruct (var_eq_dec v w); congruence. Qed.

Lemma eval_ext s s' e : (forall w, ev s w = ev s' w) -> (forall f l, ef s f l = ef s' f l) -> eval s e = eval s' e.
Proof.
  intros Hv Hf. induction e using expr_ind'; cbn [eval]; auto; try congruence.
  all: try (assert (M : map (eval s) l = map (eval s') l) by (induction H; cbn; congruence); rewrite M; auto).
  destruct (reals _); auto. now rewrite Hf.
Qed.
Lemma eval_upd_id s v e : eval (upd s v (ev s v)) e = eval s e.
Proof. apply eval_ext; auto. intros w. cbn. destruct (var_eq_dec v w); congruence. Qed.
Lemma forallb_Forall {A} (p : A -> bool) l : forallb p l = true -> Forall (fun a => p a = true) l.
Proof. induction l; cbn; intros H; constructor; apply andb_true_iff in H; tauto. Qed.

Lemma free_eval s v t e : free_of v e = true -> eval (upd s v t) e = eval s e.
Proof.
  induction e using expr_ind'; cbn [free_of eval]; intros F; auto; try discriminate.
  all: try (assert (M : map (eval (upd s v t)) l = map (eval s) l);
    [apply forallb_Forall in F; induction H; [reflexivity|]; inversion F; subst; cbn; f_equal; auto|rewrite M; auto]).
  - cbn in *. destruct (var_eq_dec v v0); [discriminate|]. reflexivity.
  - apply andb_true_iff in F. destruct F. f_equal; auto.
  - apply andb_true_iff in F. destruct F as [F F3]. apply andb_true_iff in F. destruct F. f_equal; auto.
  - apply andb_true_iff in F. destruct F. f_equal; auto.
Qed.

Lemma hd_free s v e x : free_of v e = true -> eval s e = Rv x -> has_derivative s v e 0.
Proof.
  intros F E. apply hd_const_loc with x. exists 1. split; [lra|]. intros t _. now rewrite free_eval.
Qed.
Lemma hd_value s v e y : has_derivative s v e y -> exists x, eval s e = Rv x.
Proof. intros H. apply hd_at in H. destruct H as [x E]. rewrite eval_upd_id in E. eauto. Qed.

(** ** Sums and products *)
Fixpoint rsum (l : list R) : R := match l with [] => 0 | a :: t => a + rsum t end.
Fixpoint rprod (l : list R) : R := match l with [] => 1 | a :: t => a * rprod t end.
Fixpoint dprod (xs ys : list R) : R :=
  match xs, ys with
  | x :: xs, y :: ys => y * rprod xs + x * dprod xs ys
  | _, _ => 0
  end.

Lemma vsum_reals xs : vsum (map Rv xs) = Rv (rsum xs).
Proof. induction xs as [|x xs IH]; [reflexivity|]. cbn [map]. rewrite vsum_cons, IH. reflexivity. Qed.
Lemma vprod_reals xs : vprod (map Rv xs) = Rv (rprod xs).
Proof. induction xs as [|x xs IH]; [reflexivity|]. cbn [map]. rewrite vprod_cons, IH. reflexivity. Qed.

Lemma hd_sum s v l ys : Forall2 (has_derivative s v) l ys -> has_derivative s v (EAdd l) (rsum ys).
Proof.
  induction 1 as [|e y l ys H _ IH]; [apply (hd_const 0)|]. apply (hd_add _ _ _ _ _ H IH).
Qed.
Lemma values s v l ys : Forall2 (has_derivative s v) l ys -> exists xs, map (eval s) l = map Rv xs /\ List.length xs = List.length ys.
Proof.
  induction 1 as [|e y l ys H _ (xs & IH & L)]; [now exists []|]. destruct (hd_value _ _ _ _ H) as [x E].
  exists (x :: xs). cbn. split; congruence.
Qed.
Lemma hd_prod s v l ys : Forall2 (has_derivative s v) l ys -> forall xs, map (eval s) l = map Rv xs -> has_derivative s v (EMul l) (dprod xs ys).
Proof.
  induction 1 as [|e y l ys H Hl IH]; intros xs E.
  - destruct xs; [|discriminate]. apply (hd_const 1).
  - destruct xs as [|x xs]; [discriminate|]. cbn [map] in E. injection E as E1 E2.
    apply hd_mul with (G := fun t => eval (upd s v t) e) (H := fun t => eval (upd s v t) (EMul l)); auto.
    + now apply IH.
    + now rewrite eval_upd_id.
    + rewrite eval_upd_id. cbn [eval]. rewrite E2. apply vprod_reals.
Qed.

Section Rules.
Variable I : impl.
Hypothesis HI : impl_ok I.
Variable s : env.
Hypothesis Henv : env_ok s.
Notation evl := (eval s).
Notation wf := (ExprSpec.wf s).
Variable n : nat.

Lemma diff_mul_terms_wf l : forall pre d ts, Forall wf pre -> Forall wf l -> Forall wf d -> diff_mul_terms I n pre l d = Ok ts -> Forall wf ts.
Proof.
  induction l as [|a l IH]; intros pre d ts Hp Hl Hd H; [destruct d; injection H as <-; constructor|].
  destruct d as [|da d]; [injection H as <-; constructor|]. cbn [diff_mul_terms] in H. binv H.
  inversion Hl; inversion Hd; subst. apply IH in E; auto; [|apply Forall_app; auto].
  destruct (is_zero da); [injection H as <-; auto|]. binv H. injection H as <-. constructor; auto.
  apply (mul_sound I HI s Henv n) in E0; [apply E0|]. constructor; auto. apply Forall_app. auto.
Qed.

Lemma diff_mul_terms_val l : forall pre d ts xp xl yd, Forall wf pre -> Forall wf l -> Forall wf d ->
  map evl pre = map Rv xp -> map evl l = map Rv xl -> map evl d = map Rv yd -> List.length xl = List.length yd ->
  diff_mul_terms I n pre l d = Ok ts -> vsum (map evl ts) = Rv (rprod xp * dprod xl yd).
Proof.
  induction l as [|a l IH]; intros pre d ts xp xl yd Hp Hl Hd Vp Vl Vd L H.
  - destruct xl; [|discriminate]. destruct yd; [|discriminate]. destruct d; [|discriminate]. injection H as <-. cbn. f_equal. ring.
  - destruct xl as [|x xl]; [discriminate|]. destruct yd as [|y yd]; [discriminate|]. destruct d as [|da d]; [discriminate|].
    cbn [map] in Vl, Vd. injection Vl as V1 V2. injection Vd as V3 V4. cbn [diff_mul_terms] in H. binv H.
    inversion Hl; inversion Hd; subst.
    assert (R : rprod (xp ++ [x]) = rprod xp * x) by (clear; induction xp; cbn; [ring|rewrite IHxp; ring]).
    apply (IH _ _ _ (xp ++ [x]) xl yd) in E; auto; [|apply Forall_app; auto|rewrite !map_app, Vp; cbn; now rewrite V1].
    rewrite R in E.
    destruct (is_zero da) eqn:Ez.
    + injection H as <-. apply is_zero_val in Ez. subst da. cbn in V3. injection V3 as <-. rewrite E. cbn. f_equal. ring.
    + binv H. injection H as <-. apply (mul_sound I HI s Henv n) in E0; [|constructor; auto; apply Forall_app; auto].
      destruct E0 as [_ V]. cbn [map] in V. rewrite map_app, V3, Vp, V2, <- map_app in V. rewrite vprod_cons, vprod_reals in V.
      cbn in V. cbn [map]. rewrite vsum_cons, E, V. cbn. f_equal.
      assert (R2 : forall a b, rprod (a ++ b) = rprod a * rprod b) by (clear; induction a; intros; cbn; [ring|rewrite IHa; ring]).
      rewrite R2. ring.
Qed.

Lemma diff_mul_wf l d v : Forall wf l -> Forall wf d -> diff_mul I n l d = Ok v -> wf v.
Proof.
  intros Hl Hd H. unfold diff_mul in H. binv H. apply diff_mul_terms_wf in E; auto.
  destruct x; [injection H as <-; apply (wf_numbers s)|]. apply (add_sound I HI s Henv n) in H; auto. apply H.
Qed.
Lemma diff_mul_val l d v xl yd : Forall wf l -> Forall wf d -> map evl l = map Rv xl -> map evl d = map Rv yd ->
  List.length xl = List.length yd -> diff_mul I n l d = Ok v -> evl v = Rv (dprod xl yd).
Proof.
  intros Hl Hd Vl Vd L H. unfold diff_mul in H. binv H. pose proof E as E'. apply diff_mul_terms_wf in E; auto.
  apply (diff_mul_terms_val l [] d x [] xl yd) in E'; auto. cbn [rprod] in E'. rewrite Rmult_1_l in E'.
  destruct x; [injection H as <-; exact E'|]. apply (add_sound I HI s Henv n) in H; auto. destruct H as [_ V]. rewrite E' in V. exact V.
Qed.
Lemma diff_mul_zero l d v : Forall (fun e => e = EInt 0) d -> diff_mul I n l d = Ok v -> v = EInt 0.
Proof.
  intros Hd H. unfold diff_mul in H. assert (K : forall pre, diff_mul_terms I n pre l d = Ok []).
  { clear H. revert d Hd. induction l as [|a l IH]; intros d Hd pre; [now destruct d|]. destruct d as [|da d]; [reflexivity|].
    inversion Hd; subst. cbn [diff_mul_terms]. rewrite IH by auto. reflexivity. }
  rewrite K in H. cbn in H. congruence.
Qed.

(** ** Powers *)
Definition is_number (p : expr) : Prop := match p with EInt _ | ERat _ => True | _ => False end.

Lemma not_top_refines a b : refines a b -> b <> Top -> a <> Top.
Proof. destruct b; cbn; intros H N X; subst; try discriminate; auto. Qed.

Lemma log_zero b p w lg z z' : has_log b -> wf p -> is_number p -> e_pow I n b p = Ok w -> log_fn I n b = Ok lg -> e_mul2 I n w lg = Ok z ->
  e_mul2 I n z (EInt 0) = Ok z' -> z' = EInt 0.
Proof.
  intros (s' & x & He & Hb & Vb & Hx & Hl) Hp Np Ew El Ez Ez'.
  assert (Hp' : ExprSpec.wf s' p) by (destruct p; try contradiction; exact Hp).
  assert (Vp : exists y, eval s' p = Rv y) by (destruct p; try contradiction; cbn; eauto). destruct Vp as [y Vp].
  apply (e_pow_sound I HI s' He) in Ew; auto. destruct Ew as [W1 V1].
  apply (log_sound I HI s' He) in El; auto; [|intros D x' X; rewrite Vb in X; injection X as <-; auto]. destruct El as [W2 V2].
  apply (e_mul2_sound I HI s' He) in Ez; auto. destruct Ez as [W3 V3].
  apply (mul_zero I HI s' He n z); auto. eapply not_top_refines; [exact V3|].
  assert (N1 : eval s' w <> Top). { eapply not_top_refines; [exact V1|]. rewrite Vb, Vp. now apply vpow_not_top. }
  assert (N2 : eval s' lg <> Top).
  { eapply not_top_refines; [exact V2|]. rewrite Vb. cbn. vdec; try discriminate. contradiction. }
  destruct (eval s' w), (eval s' lg); cbn; try contradiction; vdec; discriminate.
Qed.

Definition log_good (b p dp : expr) : Prop :=
  (determine_set b = real_positive -> forall x, evl b = Rv x -> 1 < x) \/ (is_number p /\ has_log b /\ dp = EInt 0).

Lemma diff_pow_wf b p db dp v : wf b -> wf p -> wf db -> wf dp -> log_good b p dp -> diff_pow I n b p db dp = Ok v -> wf v.
Proof.
  intros Hb Hp Hdb Hdp HL H. unfold diff_pow in H. destruct (is_zero db && is_zero dp); [injection H as <-; apply (wf_numbers s)|].
  binv H. binv H. binv H. binv H. binv H. binv H. binv H. binv H.
  apply (sub_sound I HI s Henv n) in E; auto; [|apply (wf_numbers s)]. destruct E as [W0 _].
  apply (e_pow_sound I HI s Henv) in E0; auto. destruct E0 as [W1 _].
  apply (e_mul2_sound I HI s Henv) in E1; auto. destruct E1 as [W2 _].
  apply (e_mul2_sound I HI s Henv) in E2; auto. destruct E2 as [W3 _].
  assert (W7 : wf x6).
  { destruct HL as [HL|(Np & Hl & ->)].
    - apply (e_pow_sound I HI s Henv) in E3; auto. destruct E3 as [W4 _].
      apply (log_sound I HI s Henv) in E4; auto. destruct E4 as [W5 _].
      apply (e_mul2_sound I HI s Henv) in E5; auto. destruct E5 as [W6 _].
      apply (e_mul2_sound I HI s Henv) in E6; auto. apply E6.
    - rewrite (log_zero b p x3 x4 x5 x6 Hl Hp Np E3 E4 E5 E6). apply (wf_numbers s). }
  apply (add2_sound I HI s Henv n) in H; auto. apply H.
Qed.

Lemma diff_pow_val b p db dp v xb yp a c : wf b -> wf p -> wf db -> wf dp -> log_good b p dp ->
  evl b = Rv xb -> evl p = Rv yp -> evl db = Rv a -> evl dp = Rv c -> diff_pow I n b p db dp = Ok v ->
  (0 < xb -> evl v = Rv (yp * Rpower xb (yp - 1) * a + Rpower xb yp * ln xb * c)) /\
  (forall z, p = EInt z -> dp = EInt 0 -> (xb <> 0 \/ ((2 <= z)%Z /\ has_log b)) -> evl v = Rv (IZR z * powerRZ xb (z - 1) * a)).
Proof.
  intros Hb Hp Hdb Hdp HL Vb Vp Vdb Vdp H. unfold diff_pow in H. destruct (is_zero db && is_zero dp) eqn:Ez.
  { injection H as <-. apply andb_true_iff in Ez. destruct Ez as [Z1 Z2]. apply is_zero_val in Z1, Z2. subst.
    cbn in Vdb, Vdp. injection Vdb as <-. injection Vdp as <-. cbn. split; intros; f_equal; ring. }
  binv H. binv H. binv H. binv H. binv H. binv H. binv H. binv H.
  apply (sub_sound I HI s Henv n) in E; auto; [|apply (wf_numbers s)]. destruct E as [W0 V0].
  apply (e_pow_sound I HI s Henv) in E0; auto. destruct E0 as [W1 V1].
  apply (e_mul2_sound I HI s Henv) in E1; auto. destruct E1 as [W2 V2].
  apply (e_mul2_sound I HI s Henv) in E2; auto. destruct E2 as [W3 V3].
  rewrite Vp in V0. cbn [eval vmul vadd refines] in V0. replace (yp + -1 * 1) with (yp - 1) in V0 by ring. rewrite Vb, V0 in V1.
  assert (U : forall r, vpow (Rv xb) (Rv (yp - 1)) = Rv r -> evl x2 = Rv (yp * r * a)).
  { intros r Hr. rewrite Hr in V1. cbn in V1. rewrite Vp, V1 in V2. cbn in V2. rewrite V2, Vdb in V3. exact V3. }
  assert (W7 : wf x6 /\ (0 < xb -> evl x6 = Rv (Rpower xb yp * ln xb * c)) /\
    (forall z, p = EInt z -> dp = EInt 0 -> (xb <> 0 \/ ((2 <= z)%Z /\ has_log b)) -> evl x6 = Rv 0)).
  { assert (Alt : is_number p -> has_log b -> dp = EInt 0 -> x6 = EInt 0).
    { intros A1 A2 ->. apply (log_zero b p x3 x4 x5 x6); auto. }
    destruct HL as [HL|(Np & Hl & Edp)].
    - apply (e_pow_sound I HI s Henv) in E3 as E3'; auto. destruct E3' as [W4 V4].
      apply (log_sound I HI s Henv) in E4 as E4'; auto. destruct E4' as [W5 V5].
      apply (e_mul2_sound I HI s Henv) in E5 as E5'; auto. destruct E5' as [W6 V6].
      apply (e_mul2_sound I HI s Henv) in E6 as E6'; auto. destruct E6' as [W7 V7].
      split; auto. rewrite Vb, Vp in V4. rewrite Vb in V5. rewrite Vdp in V7. split.
      + intros Px. rewrite vpow_pos in V4 by auto. cbn in V4. cbn in V5. destruct (Rlt_dec 0 xb); [|lra]. cbn in V5.
        rewrite V4, V5 in V6. cbn in V6. rewrite V6 in V7. exact V7.
      + intros z -> Ed [Hx|[_ Hh]]; [|rewrite Alt; cbn; auto].
        subst dp. cbn in Vdp. injection Vdp as <-.
        assert (N1 : evl x3 <> Top). { eapply not_top_refines; [exact V4|]. now apply vpow_not_top. }
        assert (N2 : evl x4 <> Top). { eapply not_top_refines; [exact V5|]. cbn. vdec; try discriminate. contradiction. }
        assert (N3 : evl x5 <> Top). { eapply not_top_refines; [exact V6|]. destruct (evl x3), (evl x4); cbn; try contradiction; vdec; discriminate. }
        destruct (evl x5) as [r| |]; [|cbn in V7; destruct (Req_EM_T 0 0); [exact V7|lra]|contradiction].
        cbn in V7. rewrite V7. f_equal. ring.
    - rewrite (Alt Np Hl Edp). split; [apply (wf_numbers s)|]. subst dp. cbn in Vdp. injection Vdp as <-. split; intros; cbn; f_equal; ring. }
  destruct W7 as (W7 & P1 & P2). apply (add2_sound I HI s Henv n) in H; auto. destruct H as [_ V]. split.
  - intros Px. rewrite (P1 Px), (U (Rpower xb (yp - 1))) in V by now apply vpow_pos. exact V.
  - intros z Ep Ed Hx. rewrite (P2 z Ep Ed Hx) in V. subst p. cbn in Vp. injection Vp as <-.
    rewrite (U (powerRZ xb (z - 1))) in V.
    + cbn in V. rewrite V. f_equal. ring.
    + rewrite <- minus_IZR. destruct (Req_dec xb 0) as [->|N]; [|now apply vpow_int].
      destruct Hx as [Hx|[Hx _]]; [contradiction|]. rewrite vpow_0_int, powerRZ_zero by lia. reflexivity.
Qed.
End Rules.

(** ** The visitor *)
Section Visitor.
Variable I : impl.
Hypothesis HI : impl_ok I.
Variable s : env.
Hypothesis Henv : env_ok s.
Notation evl := (eval s).
Notation wf := (ExprSpec.wf s).
Variable n : nat.

(** [d] is an acceptable derivative of [e]. *)
Definition good (v : var) (abstract : bool) (e d : expr) : Prop :=
  wf e -> logs_ok s e ->
  wf d /\ (free_of v e = true -> d = EInt 0) /\
  (smooth (negb abstract) s v e -> exists y, has_derivative s v e y /\ evl d = Rv y).

Definition cache_ok (v : var) (abstract : bool) (c : list (expr * expr)) : Prop :=
  Forall (fun kd => exact (fst kd) /\ good v abstract (fst kd) (snd kd)) c.

Definition self_ok (v : var) (abstract : bool) (self : expr -> dst -> dres) : Prop :=
  forall e st d st', exact e -> cache_ok v abstract (d_cache st) -> self e st = Ok (d, st') ->
    good v abstract e d /\ cache_ok v abstract (d_cache st').

Lemma smap_ok v abstract self : self_ok v abstract self -> forall l st ds st', Forall exact l -> cache_ok v abstract (d_cache st) ->
  smap self l st = Ok (ds, st') -> Forall2 (good v abstract) l ds /\ cache_ok v abstract (d_cache st').
Proof.
  intros Hs. induction l as [|a l IH]; intros st ds st' He Hc H; cbn [smap] in H.
  - injection H as <- <-. auto.
  - binv H. binv H. injection H as <- <-. destruct x as [d1 s1]. destruct x0 as [d2 s2]. cbn [fst snd] in *.
    inversion He; subst. destruct (Hs a st d1 s1) as [G1 C1]; auto. destruct (IH s1 d2 s2) as [G2 C2]; auto.
Qed.

Lemma goods_wf v abstract l ds : Forall2 (good v abstract) l ds -> Forall wf l -> Forall (logs_ok s) l -> Forall wf ds.
Proof. induction 1; intros Hw Hl; constructor; inversion Hw; inversion Hl; subst; auto. now apply H. Qed.
Lemma goods_free v abstract l ds : Forall2 (good v abstract) l ds -> Forall wf l -> Forall (logs_ok s) l -> forallb (free_of v) l = true ->
  Forall (fun d => d = EInt 0) ds.
Proof.
  induction 1; intros Hw Hl Hf; constructor; inversion Hw; inversion Hl; cbn in Hf; apply andb_true_iff in Hf; subst; destruct Hf.
  - now apply H. - now apply IHForall2.
Qed.
Lemma goods_smooth v abstract l ds : Forall2 (good v abstract) l ds -> Forall wf l -> Forall (logs_ok s) l -> Forall (smooth (negb abstract) s v) l ->
  exists ys, Forall2 (has_derivative s v) l ys /\ map evl ds = map Rv ys.
Proof.
  induction 1; intros Hw Hl Hs; [exists []; auto|]. inversion Hw; inversion Hl; inversion Hs; subst.
  destruct IHForall2 as (ys & A & B); auto. destruct (H H3 H7) as (_ & _ & G). destruct G as (y' & G1 & G2); auto.
  exists (y' :: ys). cbn. split; [constructor; auto|congruence].
Qed.
Lemma zeros_forallb ds : Forall (fun d => d = EInt 0) ds -> forallb is_zero ds = true.
Proof. induction 1; cbn; auto. subst. auto. Qed.
Lemma zeros_filter ds : Forall (fun d => d = EInt 0) ds -> List.length (filter is_zero ds) = List.length ds.
Proof. induction 1; cbn; auto. subst. cbn. auto. Qed.

Lemma fn_smooth_true f c x : fn_smooth f c x -> fn_smooth f true x.
Proof. destruct f; cbn; tauto. Qed.

Lemma EFun_ok v abstract f l ds d : wf (EFun f l) -> Forall (logs_ok s) l -> Forall2 (good v abstract) l ds ->
  diff_fn I n (EVar v) abstract f l ds = Ok d ->
  wf d /\ (free_of v (EFun f l) = true -> d = EInt 0) /\
  (smooth (negb abstract) s v (EFun f l) -> exists y, has_derivative s v (EFun f l) y /\ evl d = Rv y).
Proof.
  intros Hw Hl HG H. assert (Hwl : Forall wf l) by (apply wf_list; apply Hw).
  assert (Hwd : Forall wf ds) by (eapply goods_wf; eauto).
  split; [eapply (diff_fn_wf I HI s Henv n v abstract); eauto; exact Logic.I|]. split.
  - cbn [free_of]. intros F. pose proof (goods_free _ _ _ _ HG Hwl Hl F) as Z. unfold diff_fn in H. rewrite zeros_forallb in H by auto.
    congruence.
  - intros Hs.
    assert (One : forall a, l = [a] -> f <> Fatan2 -> smooth (negb abstract) s v a -> (forall x, evl a = Rv x -> fn_smooth f (negb abstract) x) ->
      exists y, has_derivative s v (EFun f l) y /\ evl d = Rv y).
    { intros a -> Hf Sa Sf. destruct (goods_smooth _ _ _ _ HG Hwl Hl) as (ys & A & B); auto.
      inversion A as [|? y ? ? D N]; subst. inversion N; subst. destruct ds as [|da [|]]; try discriminate. cbn in B. injection B as B.
      destruct (hd_value _ _ _ _ D) as [x Vx]. specialize (Sf x Vx).
      destruct (fn_hd f x Hf (fn_smooth_true _ _ _ Sf)) as (g & Ng & Dg).
      exists (fn' f x * y). split.
      - apply (hd_comp (fun t => eval (upd s v t) a) (fun u => vfun f [u]) g _ x); auto; [now rewrite eval_upd_id|].
        eapply near_impl; [|exact Ng]. cbn. intros u Hu. destruct f; try congruence; exact Hu.
      - inversion Hwd; subst. now apply (diff_fn_val I HI s Henv n v abstract f a da d x y). }
    destruct f; try (destruct l as [|a [|]]; cbn in Hs; try contradiction; destruct Hs; apply (One a); auto; discriminate).
    destruct l as [|a [|b [|]]]; cbn in Hs; try contradiction; [|].
    + exfalso. destruct (goods_smooth _ _ _ _ HG Hwl Hl) as (ys & A & B); [constructor; [apply Hs|constructor]|].
      inversion A as [|? ya ? ? Da N]; subst. destruct (hd_value _ _ _ _ Da) as [y Vy]. destruct Hs as [_ Hs]. exact (Hs y Vy).
    + destruct Hs as (Sa & Sb & Sf). destruct (goods_smooth _ _ _ _ HG Hwl Hl) as (ys & A & B); [auto|].
      inversion A as [|? ya ? ? Da N]; subst. inversion N as [|? yb ? ? Db N']; subst. inversion N'; subst.
      destruct ds as [|da [|db [|]]]; try discriminate. cbn in B. injection B as Ba Bb.
      destruct (hd_value _ _ _ _ Da) as [y Vy]. destruct (hd_value _ _ _ _ Db) as [x Vx]. specialize (Sf y x Vy Vx).
      exists ((x * ya - y * yb) / (y * y + x * x)). split.
      * apply (hd_comp2 (fun t => eval (upd s v t) a) (fun t => eval (upd s v t) b) (fun u w => vfun Fatan2 [u; w]) _ y x ya yb); auto;
          try now rewrite eval_upd_id.
        intros F F' EF EF' DF DF'. rewrite <- EF, <- EF'. apply atan2_hd; auto. now rewrite EF, EF'.
      * inversion Hwl as [|? ? Wa Wl]; inversion Wl; inversion Hwd as [|? ? Wda Wdl]; inversion Wdl; subst.
        apply (diff_atan2_val I HI s Henv n v abstract a b da db d y x ya yb); auto.
        pose proof (Rle_0_sqr y) as P. pose proof (Rle_0_sqr x) as Q. unfold Rsqr in *. destruct Sf as [Sf|Sf]; [nra|].
        pose proof (Rsqr_pos_lt y Sf) as T. unfold Rsqr in T. lra.
Qed.

Lemma num_zero v abstract p d : is_number p -> wf p -> good v abstract p d -> d = EInt 0.
Proof. intros N W G. apply G; auto; destruct p; try contradiction; auto; exact Logic.I. Qed.

Lemma EPow_ok v abstract b p db dp d : wf b -> wf p -> logs_ok s (EPow b p) -> good v abstract b db -> good v abstract p dp ->
  diff_pow I n b p db dp = Ok d ->
  wf d /\ (free_of v (EPow b p) = true -> d = EInt 0) /\
  (smooth (negb abstract) s v (EPow b p) -> exists y, has_derivative s v (EPow b p) y /\ evl d = Rv y).
Proof.
  intros Hb Hp (Lb & Lp & LL) Gb Gp H. pose proof (num_zero v abstract p dp) as NZ. pose proof Gp as Gp'.
  destruct (Gb Hb Lb) as (Wdb & Fb & Sb). destruct (Gp Hp Lp) as (Wdp & Fp & Sp).
  assert (LG : log_good s b p dp) by (destruct LL as [LL|[N LL]]; [left; auto|right; repeat split; auto]).
  split; [eapply (diff_pow_wf I HI s Henv n b p db dp); eauto|]. split.
  - cbn [free_of]. intros F. apply andb_true_iff in F. destruct F as [F1 F2]. rewrite (Fb F1), (Fp F2) in H. cbn in H. congruence.
  - cbn [smooth]. intros (S1 & S2 & S3). destruct (Sb S1) as (a & Da & Va). destruct (Sp S2) as (c & Dc & Vc).
    destruct (hd_value _ _ _ _ Da) as [xb Vb]. destruct (hd_value _ _ _ _ Dc) as [yp Vp].
    destruct (diff_pow_val I HI s Henv n b p db dp d xb yp a c) as [P1 P2]; auto.
    destruct (S3 xb Vb) as [Px|(z & -> & Hz)].
    + exists (yp * Rpower xb (yp - 1) * a + Rpower xb yp * ln xb * c). split; auto.
      apply (hd_comp2 (fun t => eval (upd s v t) b) (fun t => eval (upd s v t) p) vpow _ xb yp a c); auto; try now rewrite eval_upd_id.
      intros F F' EF EF' DF DF'. rewrite <- EF, <- EF'. apply pow_hd_pos; auto. now rewrite EF.
    + assert (Edp : dp = EInt 0) by (apply NZ; auto; exact Logic.I).
      exists (IZR z * powerRZ xb (z - 1) * a). split; [|apply (P2 z); auto].
      destruct Da as (F & d0 & Hd0 & EF & DF).
      assert (FX : F (ev s v) = xb).
      { specialize (EF (ev s v)). rewrite eval_upd_id, Vb in EF. rewrite Rminus_diag_eq, Rabs_R0 in EF by auto. specialize (EF Hd0). congruence. }
      eapply hd_loc; [|rewrite <- FX; apply (pow_hd_int F _ a z DF); rewrite FX; tauto].
      exists d0. split; auto. intros t Ht. cbn [eval]. rewrite EF by auto. reflexivity.
Qed.

Lemma ident_var w v : ident (EVar w) (EVar v) = true <-> w = v.
Proof.
  split; [intros H; apply var_ident_eq; exact H|]. intros ->. apply ident_refl. exact Logic.I.
Qed.

Lemma symfn_terms_cache x name l : forall pre d st ts st', diff_symfn_terms I n x name pre l d st = Ok (ts, st') -> d_cache st' = d_cache st.
Proof.
  induction l as [|a l IH]; intros pre d st ts st' H; cbn [diff_symfn_terms] in H; [injection H as <- <-; auto|].
  destruct d as [|da d]; [injection H as <- <-; auto|]. destruct (is_zero da).
  - binv H. injection H as <- <-. destruct x0. eapply IH; eauto.
  - cbn [fresh] in H. binv H. binv H. binv H. binv H. injection H as <- <-. destruct x3. apply IH in E2. exact E2.
Qed.
Lemma symfn_terms_wf v name l : forall pre d st ts st', Forall wf pre -> Forall wf l -> Forall wf d ->
  diff_symfn_terms I n (EVar v) name pre l d st = Ok (ts, st') -> Forall wf ts.
Proof.
  induction l as [|a l IH]; intros pre d st ts st' Hp Hl Hd H; cbn [diff_symfn_terms] in H; [injection H as <- <-; auto|].
  destruct d as [|da d]; [injection H as <- <-; auto|]. inversion Hl; inversion Hd; subst. destruct (is_zero da).
  - binv H. injection H as <- <-. destruct x. constructor; [apply (wf_numbers s)|]. eapply IH; [| | |exact E]; auto. apply Forall_app; auto.
  - cbn [fresh] in H. binv H. binv H. binv H. binv H. injection H as <- <-. destruct x2. constructor.
    + apply (deriv_sound s) in E; [| |exact Logic.I].
      2:{ cbn. apply wf_list. apply Forall_app. split; auto. constructor; auto. exact Logic.I. }
      apply (subst_wf s) in E0; auto; [|exact Logic.I]. apply (e_mul2_sound I HI s Henv) in E1; auto. apply E1.
    + eapply IH; [| | |exact E2]; auto. apply Forall_app; auto.
Qed.

Lemma visit_ok v abstract self self_new : self_ok v abstract self -> (forall w, self_ok w false (self_new (EVar w))) ->
  forall e st d st', exact e -> cache_ok v abstract (d_cache st) -> diff_visit I n self self_new (EVar v) abstract e st = Ok (d, st') ->
  good v abstract e d /\ cache_ok v abstract (d_cache st').
Proof.
  intros Hself Hnew e st d st' He Hc H.
  assert (W0 : wf (EInt 0)) by apply (wf_numbers s).
  assert (Const : forall x, evl e = Rv x -> free_of v e = true -> st' = st -> d = EInt 0 -> good v abstract e d /\ cache_ok v abstract (d_cache st')).
  { intros x V F -> ->. split; auto. intros _ _. split; auto. split; auto. intros _. exists 0. split; auto. eapply hd_free; eauto. }
  assert (Zero : (smooth (negb abstract) s v e -> False) -> st' = st -> d = EInt 0 -> good v abstract e d /\ cache_ok v abstract (d_cache st')).
  { intros S -> ->. split; auto. intros _ _. split; auto. split; auto. intros X. destruct (S X). }
  destruct e; cbn [diff_visit] in H.
  - injection H as <- <-. apply Zero; auto.
  - injection H as <- <-. eapply Const; auto; reflexivity.
  - injection H as <- <-. eapply Const; auto; reflexivity.
  - injection H as <- <-. destruct c; eapply Const; auto; reflexivity.
  - injection H as <- <-. apply Zero; auto.
  - injection H as <- <-. apply Zero; auto.
  - injection H as <- <-. split; auto. intros _ _. split; [exact Logic.I|]. split; [discriminate|]. intros [].
  - injection H as <- <-. split; auto. change (var_ident v0 v) with (ident (EVar v0) (EVar v)). clear Const Zero.
    destruct (ident (EVar v0) (EVar v)) eqn:Ei.
    + apply ident_var in Ei. subst v0. intros _ _. split; [apply (wf_numbers s)|]. split.
      * cbn. destruct (var_eq_dec v v); [discriminate|contradiction].
      * intros _. exists 1. split; auto. eapply hd_ext; [|apply hd_id]. intros t. cbn. destruct (var_eq_dec v v); [reflexivity|contradiction].
    + assert (N : v <> v0) by (intros ->; rewrite (proj2 (ident_var v0 v0) eq_refl) in Ei; discriminate).
      intros _ _. split; auto. split; auto. intros _. exists 0. split; auto. eapply hd_free; [|reflexivity]. cbn.
      destruct (var_eq_dec v v0); [contradiction|reflexivity].
  - (* product *)
    binv H. binv H. injection H as <- <-. destruct x as [ds s1]. cbn [fst snd] in *.
    cbn [exact] in He. destruct He as [_ He]. apply all_of_Forall in He.
    apply (smap_ok v abstract self Hself) in E; auto. destruct E as [G C]. split; auto. intros Hw Hl.
    apply wf_EMul in Hw. destruct Hw as (_ & _ & _ & Hw). apply all_of_Forall in Hl.
    assert (Wd : Forall wf ds) by (eapply goods_wf; eauto). split; [eapply (diff_mul_wf I HI s Henv n l ds); eauto|]. split.
    + cbn [free_of]. intros F. eapply diff_mul_zero; [|exact E0]. eapply goods_free; eauto.
    + cbn [smooth]. intros S. apply all_of_Forall in S. destruct (goods_smooth _ _ _ _ G Hw Hl S) as (ys & A & B).
      destruct (values _ _ _ _ A) as (xs & V & L). exists (dprod xs ys). split; [now apply hd_prod|].
      eapply (diff_mul_val I HI s Henv n l ds); eauto.
  - (* sum *)
    binv H. binv H. injection H as <- <-. destruct x as [ds s1]. cbn [fst snd] in *.
    cbn [exact] in He. apply all_of_Forall in He.
    apply (smap_ok v abstract self Hself) in E; auto. destruct E as [G C]. split; auto. intros Hw Hl.
    apply wf_EAdd in Hw. apply all_of_Forall in Hl.
    assert (Wd : Forall wf ds) by (eapply goods_wf; eauto).
    destruct (add_sound I HI s Henv n ds x0 Wd E0) as [W V]. split; auto. split.
    + cbn [free_of]. intros F. eapply add_zero; [exact HI| |exact E0]. eapply goods_free; eauto.
    + cbn [smooth]. intros S. apply all_of_Forall in S. destruct (goods_smooth _ _ _ _ G Hw Hl S) as (ys & A & B).
      exists (rsum ys). split; [now apply hd_sum|]. rewrite B, vsum_reals in V. exact V.
  - (* power *)
    binv H. binv H. binv H. injection H as <- <-. destruct x as [db s1]. destruct x0 as [dp s2]. cbn [fst snd] in *.
    destruct He as [He1 He2]. apply Hself in E; auto. destruct E as [G1 C1]. apply Hself in E0; auto. destruct E0 as [G2 C2]. split; auto.
    intros [Hb Hp] Hl. eapply EPow_ok; eauto.
  - (* built-in *)
    binv H. binv H. injection H as <- <-. destruct x as [ds s1]. cbn [fst snd] in *.
    cbn [exact] in He. apply all_of_Forall in He.
    apply (smap_ok v abstract self Hself) in E; auto. destruct E as [G C]. split; auto. intros Hw Hl.
    apply all_of_Forall in Hl. eapply EFun_ok; eauto.
  - (* symbolic function *)
    binv H. destruct x as [ds s1]. cbn [fst snd] in *. cbn [exact] in He. apply all_of_Forall in He.
    apply (smap_ok v abstract self Hself) in E; auto. destruct E as [G C].
    assert (C' : d_cache st' = d_cache s1).
    { unfold diff_symfn in H. destruct (Nat.eqb _ _); [injection H as <- <-; auto|]. destruct (_ && _); [binv H; injection H as <- <-; auto|].
      binv H. binv H. injection H as <- <-. destruct x as [ts s2]. cbn [fst snd] in *. eapply symfn_terms_cache; eauto. }
    rewrite C'. split; auto. intros Hw Hl. apply all_of_Forall in Hl. assert (Hwl : Forall wf l) by (apply wf_list; apply Hw).
    assert (Wd : Forall wf ds) by (eapply goods_wf; eauto). split.
    { unfold diff_symfn in H. destruct (Nat.eqb _ _); [injection H as <- <-; auto|].
      destruct (_ && _); [binv H; injection H as <- <-; eapply (deriv_sound s); [| |exact E]; [exact Hw|exact Logic.I]|].
      binv H. binv H. injection H as <- <-. destruct x as [ts s2]. cbn [fst snd] in *.
      apply symfn_terms_wf in E; auto. apply (add_sound I HI s Henv n) in E0; auto. apply E0. }
    assert (F : forallb (free_of v) l = true -> d = EInt 0).
    { intros F. pose proof (goods_free _ _ _ _ G Hwl Hl F) as Z. unfold diff_symfn in H. rewrite zeros_filter in H by auto.
      rewrite Nat.eqb_refl in H. congruence. }
    split; auto. cbn [smooth]. intros (Fl & xs & R). exists 0. split; [|rewrite F; auto].
    eapply hd_free; [exact Fl|]. cbn [eval]. rewrite R. reflexivity.
  - (* unevaluated *)
    binv H. binv H. injection H as <- <-. destruct x as [da s1]. cbn [fst snd] in *.
    apply Hself in E; auto. destruct E as [G C]. split; auto. intros Hw Hl. destruct (G Hw Hl) as (W & _ & S).
    destruct (uneval_sound s da x0 W E0) as [W' V]. split; auto. split; [discriminate|].
    intros Sa. destruct (S Sa) as (y & D & Vy). exists y. split; [exact D|]. rewrite Vy in V. exact V.
  - (* conditional *)
    binv H. binv H. binv H. injection H as <- <-. destruct x as [da s1]. destruct x0 as [db s2]. cbn [fst snd] in *.
    destruct He as (_ & He1 & He2). apply Hself in E; auto. destruct E as [G1 C1]. apply Hself in E0; auto. destruct E0 as [G2 C2]. split; auto.
    intros (Hwc & Hwa & Hwb) (Lc & La & Lb). destruct (G1 Hwa La) as (W1 & F1 & S1). destruct (G2 Hwb Lb) as (W2 & F2 & S2).
    destruct (cond_sound s e1 da db x1 Hwc W1 W2 E1) as [W V]. split; auto. split.
    + cbn [free_of]. intros F. apply andb_true_iff in F. destruct F as [F F4]. apply andb_true_iff in F. destruct F as [_ F3].
      rewrite (F1 F3), (F2 F4) in E1. unfold cond_fn in E1. destruct (ident e1 (EBool true)); [congruence|].
      destruct (ident e1 (EBool false)); [congruence|]. cbn in E1. congruence.
    + cbn [smooth]. intros [[(d0 & Hd0 & LC) S]|[(d0 & Hd0 & LC) S]].
      * destruct (S1 S) as (y & D & Vy). exists y.
        assert (Vc : evl e1 = Rv 1). { rewrite <- (eval_upd_id s v). apply LC. now rewrite Rminus_diag_eq, Rabs_R0. }
        rewrite Vc, vcond_true, Vy in V. split; auto. eapply hd_loc; [|exact D]. exists d0. split; auto. intros t Ht.
        cbn [eval]. rewrite LC by auto. now rewrite vcond_true.
      * destruct (S2 S) as (y & D & Vy). exists y.
        assert (Vc : evl e1 = Rv 0). { rewrite <- (eval_upd_id s v). apply LC. now rewrite Rminus_diag_eq, Rabs_R0. }
        rewrite Vc, vcond_false, Vy in V. split; auto. eapply hd_loc; [|exact D]. exists d0. split; auto. intros t Ht.
        cbn [eval]. rewrite LC by auto. now rewrite vcond_false.
  - (* Iverson bracket *)
    destruct abstract.
    + binv H. injection H as <- <-. split; auto. intros Hw Hl. split; [eapply (deriv_sound s); [| |exact E]; [exact Hw|exact Logic.I]|].
      split; [discriminate|]. intros [X _]. discriminate.
    + injection H as <- <-. split; auto. intros Hw Hl. split; auto. split; [discriminate|].
      intros (_ & r & LC). exists 0. split; auto. apply hd_const_loc with r. exact LC.
  - (* derivative *)
    binv H. injection H as <- <-. split; auto. intros Hw Hl. split; [|split; [discriminate|intros []]].
    cbn [diff_deriv] in E. destruct (negb (is_function_of (EVar v) e1)); [injection E as <-; auto|].
    eapply (deriv_sound s); [| |eassumption]; [exact Hw|exact Logic.I].
  - (* substitution *)
    destruct He as (He1 & He2 & He3). unfold diff_subst in H. destruct (is_function_of (EVar v) e2) eqn:Ef.
    { binv H. injection H as <- <-. split; auto. intros Hw Hl. split; [eapply (deriv_sound s); [| |exact E]; [exact Hw|exact Logic.I]|].
      split; [discriminate|intros []]. }
    binv H. binv H. destruct x as [di s1]. destruct x0 as [dr s2]. cbn [fst snd] in *.
    apply Hself in E; auto. destruct E as [G1 C1]. apply Hself in E0; auto. destruct E0 as [G2 C2].
    destruct (is_zero dr).
    { binv H. injection H as <- <-. split; auto. intros (Hw1 & Hw2 & Hw3) (Hl1 & Hl2 & Hl3).
      destruct (G1 Hw1 Hl1) as (W1 & _). split; [eapply (subst_wf s); [exact W1|exact Hw2|exact Hw3|exact E]|]. split; [discriminate|intros []]. }
    binv H. binv H. binv H. binv H. injection H as <- <-. destruct x as [w s3]. cbn [fst snd] in *.
    assert (K : d_cache s3 = d_cache s2 /\ (wf (ESubst e1 e2 e3) -> logs_ok s (ESubst e1 e2 e3) -> wf w)).
    { clear E0 E1 E2 Const Zero.
      assert (Gen : (let (u, s4) := fresh (determine_set e3) s2 in
             let* a := subst_fn e1 e2 u in let* b := deriv_fn a u 1 in let* v := subst_fn b u e3 in Ok (v, s4)) = Ok (w, s3) ->
             d_cache s3 = d_cache s2 /\ (wf (ESubst e1 e2 e3) -> logs_ok s (ESubst e1 e2 e3) -> wf w)).
      { intros X. cbn [fresh] in X. binv X. binv X. binv X. injection X as <- <-. split; [reflexivity|].
        intros (Hw1 & Hw2 & Hw3) _. eapply (subst_wf s); [| |exact Hw3|exact E2]; [|exact Logic.I].
        eapply (deriv_sound s); [| |exact E1]; [|exact Logic.I]. eapply (subst_wf s); [exact Hw1|exact Hw2| |exact E0]. exact Logic.I. }
      assert (Gen2 : forall y, e3 = EVar y -> (let* v := deriv_fn (ESubst e1 e2 e3) e3 1 in Ok (v, s2)) = Ok (w, s3) ->
             d_cache s3 = d_cache s2 /\ (wf (ESubst e1 e2 e3) -> logs_ok s (ESubst e1 e2 e3) -> wf w)).
      { intros y -> X. binv X. injection X as <- <-. split; auto. intros Hw _. eapply (deriv_sound s); [| |eassumption]; [exact Hw|exact Logic.I]. }
      destruct e2; try (destruct e3; try (apply Gen; exact E); eapply Gen2; [reflexivity|exact E]).
      binv E. binv E. injection E as <- <-. split; [reflexivity|]. intros (Hw1 & Hw2 & Hw3) (Hl1 & _).
      destruct x as [dn s4]. apply Hnew in E0; auto; [|constructor]. destruct E0 as [G3 _]. cbn [fst] in E1.
      eapply (subst_wf s dn (EVar v0) e3); [apply G3; auto|exact Logic.I|exact Hw3|exact E1]. }
    destruct K as [K1 K2]. rewrite K1. split; auto. intros Hw Hl. pose proof (K2 Hw Hl) as Ww. destruct Hw as (Hw1 & Hw2 & Hw3), Hl as (Hl1 & Hl2 & Hl3).
    destruct (G1 Hw1 Hl1) as (W1 & _). destruct (G2 Hw3 Hl3) as (W2 & _). split; [|split; [discriminate|intros []]].
    apply (e_mul2_sound I HI s Henv) in E0; auto. destruct E0 as [W3 _]. apply (subst_wf s) in E1; auto.
    apply (add2_sound I HI s Henv n) in E2; auto. apply E2.
  - injection H as <- <-. apply Zero; auto.
  - discriminate.
  - discriminate.
Qed.

Lemma lookup_good v abstract e c d : exact e -> cache_ok v abstract c -> lookup I e c = Some d -> good v abstract e d.
Proof.
  intros He Hc H. induction Hc as [|[k d'] c [Hk G] _ IH]; [discriminate|]. cbn [lookup fst snd] in *.
  destruct (key_eq I k e) eqn:E; [|auto]. apply (key_eq_iff I) in E; auto. subst e. injection H as <-. exact G.
Qed.

Lemma dv_ok k : forall v abstract, self_ok v abstract (dv I n k (EVar v) abstract).
Proof.
  induction k as [|k IH]; intros v abstract e st d st' He Hc H; [discriminate|]. cbn [dv] in H.
  destruct (lookup I e (d_cache st)) as [d0|] eqn:El.
  - injection H as <- <-. split; auto. eapply lookup_good; eauto.
  - binv H. injection H as <- <-. destruct x as [r s1]. cbn [fst snd d_cache] in *.
    apply (visit_ok v abstract _ _ (IH v abstract) (fun w => IH w false)) in E; auto. destruct E as [G C]. split; auto.
    constructor; auto.
Qed.
End Visitor.
