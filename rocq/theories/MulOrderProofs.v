From Coq Require Import String List ZArith Reals Bool Permutation Lia Lra Sorted.
From Verif Require Import Outcome CheckedIntModel RationalModel RationalSpec RationalProofs IntFloatModel ExprModel ExprSpec NumProofs
  BuildModel BuildProofs FuelProofs OrderSpec OrderProofs SumSpec SumProofs.
Import ListNotations.
Open Scope R_scope.
Open Scope outcome_scope.

Definition amul (a b : aval) : aval :=
  match a, b with
  | AU, _ | _, AU => AU
  | AI, AI => AI
  | AI, AR x | AR x, AI => if Req_EM_T x 0 then AU else AI
  | AR x, AR y => AR (x * y)
  end.
Lemma amul_comm a b : amul a b = amul b a.
Proof. destruct a, b; cbn; auto. f_equal. lra. Qed.
Lemma amul_assoc a b c : amul a (amul b c) = amul (amul a b) c.
Proof.
  destruct a as [x| |], b as [y| |], c as [z| |]; cbn; auto;
    repeat match goal with |- context [Req_EM_T ?x ?y] => destruct (Req_EM_T x y); cbn end; auto; try (f_equal; lra).
  all: exfalso.
  all: try match goal with H : ?x * ?y = 0 |- _ => apply Rmult_integral in H; tauto end.
  all: try match goal with H : ?x * ?y <> 0 |- _ => apply H; subst; lra end.
Qed.

Lemma coeff_zero c : cex c -> coeff_is_zero c = true <-> absc c = AR 0.
Proof.
  destruct c; cbn; intros H; try (split; [discriminate|intros X; discriminate X]); try contradiction.
  - rewrite Z.eqb_eq. split; [intros ->; auto|]. intros X. injection X as X. apply eq_IZR. auto.
  - rewrite Z.eqb_eq. unfold rat_val. pose proof (canon_den r H) as D. split.
    + intros ->. f_equal. unfold Rdiv. ring.
    + intros X. injection X as X. apply eq_IZR. apply (Rmult_eq_reg_r (/ IZR (den r))); [|apply Rinv_neq_0_compat; auto].
      unfold Rdiv in X. lra.
Qed.

Lemma zero_inf c x : cex c -> absc c = AR x ->
  cex (if coeff_is_zero c then CUndef else CInf) /\ absc (if coeff_is_zero c then CUndef else CInf) = (if Req_EM_T x 0 then AU else AI).
Proof.
  intros H E. pose proof (coeff_zero c H) as Z. rewrite E in Z. destruct (coeff_is_zero c), (Req_EM_T x 0) as [X|X]; split; cbn; auto.
  - exfalso. apply X. assert (Y := proj1 Z eq_refl). congruence.
  - exfalso. assert (Y : false = true) by (apply Z; congruence). discriminate.
Qed.

Lemma mul_num_abs a b c : cex a -> cex b -> mul_num a b = Ok c -> cex c /\ absc c = amul (absc a) (absc b).
Proof.
  intros Ha Hb E. pose proof (coeff_zero a Ha) as ZA. pose proof (coeff_zero b Hb) as ZB.
  destruct a, b; cbn in Ha, Hb; try contradiction; cbn [mul_num] in E;
    try (injection E as <-; split; [exact Logic.I|reflexivity]).
  1, 2, 4, 5: binv E; injection E as <-; cbn [cex absc amul].
  - apply ck_mul_inv in E0; auto. destruct E0 as [-> H]. split; auto. rewrite mult_IZR. reflexivity.
  - apply rat_mul_inv in E0; auto using rat_of_int_canon. destruct E0 as [H ->]. split; auto. rewrite rat_of_int_val, Rmult_comm. reflexivity.
  - apply rat_mul_inv in E0; auto using rat_of_int_canon. destruct E0 as [H ->]. split; auto. rewrite rat_of_int_val. reflexivity.
  - apply rat_mul_inv in E0; auto. destruct E0 as [H ->]. split; auto.
  - injection E as <-. apply (zero_inf (CInt z)); auto.
  - injection E as <-. apply (zero_inf (CRat r)); auto.
  - injection E as <-. apply (zero_inf (CInt z)); auto.
  - injection E as <-. apply (zero_inf (CRat r)); auto.
Qed.

(** The factors of a nested product. *)
Fixpoint factors (e : expr) : list expr :=
  match e with EMul l => flat_map factors l | _ => [e] end.

Definition simple (e : expr) : Prop := exact e /\ monomial e /\ is_mul e = false.
Lemma factors_simple e : exact e -> monomial e -> Forall simple (factors e).
Proof.
  induction e as [e IH] using expr_ind2. intros H M.
  destruct e; try (constructor; [split; [auto|split; auto]|constructor]; fail).
  cbn [factors]. destruct H as [_ H]. apply all_of_Forall in H. cbn [monomial] in M. apply all_of_Forall in M.
  induction H as [|x l Hx Hl IHl]; cbn [flat_map]; auto.
  apply Forall_app. split; [apply (Forall_inv IH); auto; exact (Forall_inv M)|apply IHl; [exact (Forall_inv_tail IH)|exact (Forall_inv_tail M)]].
Qed.

Definition mterm_of (e : expr) : option (expr * R) :=
  match coeff_of e with
  | Some _ => None
  | None => match e with EPow b x => Some (b, nval x) | _ => Some (e, 1) end
  end.
Definition mconst_of (e : expr) : aval := match coeff_of e with Some c => absc c | None => AR 1 end.
Lemma mterm_exact e k v : exact e -> mterm_of e = Some (k, v) -> exact k.
Proof.
  unfold mterm_of. intros He H. destruct (coeff_of e) eqn:EC; [discriminate|].
  destruct e; cbn in EC; try discriminate; injection H as <- <-; cbn in *; tauto.
Qed.
Lemma one_exnum : exnum (EInt 1).
Proof. split; auto. cbn. unfold in_i64, INT64_MIN, INT64_MAX. lia. Qed.

Section Mul.
Variable I : impl.
Variable r : ops.
Hypothesis Hr : forall a b e, exnum a -> exnum b -> o_add r [a; b] = Ok e -> exnum e /\ nval e = nval a + nval b.
Hypothesis Hp : forall b x e, is_atom b = true -> exnum x -> is_zero x = false -> o_pow r b x = Ok e -> e = if is_one x then b else EPow b x.

Notation pinv := (sinv I amul (AR 1) mconst_of mterm_of).

Lemma mul_visit_factors e : forall p, mul_visit I r p e = efold (mul_visit I r) (factors e) p.
Proof.
  induction e as [e IH] using expr_ind2. intros p.
  destruct e; try (cbn [factors efold]; destruct (mul_visit I r p _); reflexivity).
  cbn [factors mul_visit]. revert p. induction l as [|x l IHl]; intros p; cbn [flat_map efold]; auto.
  rewrite efold_app. rewrite (Forall_inv IH p). destruct (efold (mul_visit I r) (factors x) p); cbn; auto.
  apply IHl. exact (Forall_inv_tail IH).
Qed.
Lemma mul_visit_all l : forall p, efold (mul_visit I r) l p = efold (mul_visit I r) (flat_map factors l) p.
Proof.
  induction l as [|x l IH]; intros p; cbn [flat_map efold]; auto. rewrite efold_app, mul_visit_factors.
  destruct (efold _ (factors x) p); cbn; auto.
Qed.

Lemma insert_step l p e b x p' : Forall exact l -> exact e -> coeff_of e = None -> mterm_of e = Some (b, nval x) -> exact b -> exnum x ->
  is_mul b = false -> is_pow b = false ->
  pinv l p -> insert_power I r p b x = Ok p' -> pinv (l ++ [e]) p'.
Proof.
  intros Hl He EC ET Hb Hx Bm Bp [S1 S2 S3 S4] H. unfold insert_power in H. rewrite Bm, Bp in H. cbn [orb bind] in H.
  assert (EC0 : total_const amul (AR 1) mconst_of (l ++ [e]) = total_const amul (AR 1) mconst_of l).
  { rewrite total_const_snoc by (apply amul_comm || apply amul_assoc). replace (mconst_of e) with (AR 1) by (unfold mconst_of; rewrite EC; auto).
    destruct (total_const _ _ _ l); cbn; auto; [f_equal; lra|]. destruct (Req_EM_T 1 0); auto. lra. }
  destruct (lookup I b (p_terms p)) as [old|] eqn:EL.
  - binv H. injection H as <-. pose proof (S4 b Hb) as HM. rewrite EL in HM. destruct HM as [M1 M2].
    assert (Ho : exnum old).
    { apply (lookup_iff I) in EL; auto. destruct S3 as [_ S3]. rewrite Forall_forall in S3. apply S3 in EL. apply EL. }
    apply Hr in E; auto. destruct E as [X1 X2].
    split; cbn [p_coeff p_terms]; auto; [congruence|apply update_tinv; auto|].
    intros k Hk. rewrite lookup_update by (auto; congruence). rewrite total_weight_snoc. unfold weight. rewrite ET.
    destruct (ident b k) eqn:EI.
    + apply ident_eq in EI; auto. subst k. rewrite X2, M1. split; [lra|]. apply Exists_app. auto.
    + specialize (S4 k Hk). destruct (lookup I k (p_terms p)) as [v|].
      * destruct S4 as [Y1 Y2]. split; [lra|]. apply Exists_app. auto.
      * apply Forall_app. split; auto. constructor; auto. intros [v Hv]. rewrite ET in Hv. injection Hv as -> _.
        rewrite ident_refl in EI by (apply exact_plain; auto). discriminate.
  - injection H as <-. split; cbn [p_coeff p_terms]; auto; [congruence| |].
    + destruct S3 as [T1 T2]. assert (HN : ~ In b (map fst (p_terms p))) by (apply (lookup_none I); auto; split; auto).
      split; [rewrite map_app; cbn|apply Forall_app; split; auto].
      apply (Permutation_NoDup (l := b :: map fst (p_terms p))); [rewrite Permutation_app_comm; reflexivity|constructor; auto].
    + intros k Hk. rewrite lookup_app by auto. rewrite total_weight_snoc. unfold weight. rewrite ET.
      pose proof (S4 b Hb) as HM. rewrite EL in HM.
      destruct (ident b k) eqn:EI.
      * apply ident_eq in EI; auto. subst k. rewrite (total_weight_none mterm_of mterm_exact) by auto. split; [lra|]. apply Exists_app. right. constructor. exists (nval x). auto.
      * specialize (S4 k Hk). destruct (lookup I k (p_terms p)) as [v|].
        -- destruct S4 as [Y1 Y2]. split; [lra|]. apply Exists_app. auto.
        -- apply Forall_app. split; auto. constructor; auto. intros [v Hv]. rewrite ET in Hv. injection Hv as -> _.
           rewrite ident_refl in EI by (apply exact_plain; auto). discriminate.
Qed.

Lemma visit_step l p e p' : Forall exact l -> simple e -> pinv l p -> mul_visit I r p e = Ok p' -> pinv (l ++ [e]) p'.
Proof.
  intros Hl (He & Hm & Hn) HS H. assert (H1 := one_exnum).
  destruct (coeff_of e) as [c|] eqn:EC.
  - assert (E : (let* c' := mul_num (p_coeff p) c in Ok (mk_parts c' (p_terms p))) = Ok p') by
      (destruct e; cbn in EC; try discriminate; injection EC as <-; exact H). clear H.
    binv E. injection E as <-. destruct HS as [S1 S2 S3 S4]. apply mul_num_abs in E0; auto; [|eapply coeff_of_exact; eauto]. destruct E0 as [X1 X2].
    assert (ET : mterm_of e = None) by (unfold mterm_of; rewrite EC; auto).
    split; cbn [p_coeff p_terms]; auto.
    + rewrite total_const_snoc by (apply amul_comm || apply amul_assoc). rewrite X2, S2. f_equal. unfold mconst_of. rewrite EC. reflexivity.
    + intros k Hk. specialize (S4 k Hk). destruct (lookup I k (p_terms p)) as [v|].
      * destruct S4 as [Y1 Y2]. rewrite total_weight_snoc. unfold weight. rewrite ET, Y1. split; [lra|].
        apply Exists_app. auto.
      * apply Forall_app. split; auto. constructor; auto. intros [v Hv]. congruence.
  - assert (G : forall b, e = b -> is_atom b = true -> mul_visit I r p e = insert_power I r p e (EInt 1) -> pinv (l ++ [e]) p').
    { intros b <- HA HV. rewrite HV in H. eapply (insert_step l p e e (EInt 1)); eauto.
      - unfold mterm_of. rewrite EC. destruct e; try discriminate HA; reflexivity.
      - destruct e; try discriminate HA; reflexivity. }
    destruct e; try discriminate EC; try discriminate Hn; try (apply (G _ eq_refl); [exact Hm|reflexivity]).
    + destruct Hm as [M1 M2]. cbn [mul_visit] in H. destruct He as [E1 E2].
      eapply (insert_step l p (EPow e1 e2) e1 e2); eauto; try reflexivity; try (split; auto; fail); destruct e1; auto; discriminate M1.
    + apply (G _ eq_refl); [exact Hm|]. destruct f; try reflexivity. discriminate Hm.
Qed.

Lemma visit_loop l : forall l0 p p', Forall exact l0 -> Forall simple l -> pinv l0 p -> efold (mul_visit I r) l p = Ok p' -> pinv (l0 ++ l) p'.
Proof.
  induction l as [|e l IH]; intros l0 p p' H0 Hl HS H; cbn [efold] in H.
  - injection H as <-. rewrite app_nil_r. auto.
  - binv H. replace (l0 ++ e :: l) with ((l0 ++ [e]) ++ l) by (rewrite <- app_assoc; auto).
    pose proof (Forall_inv Hl) as He. eapply IH; [|exact (Forall_inv_tail Hl)| |exact H].
    + apply Forall_app. split; auto. constructor; auto. apply He.
    + eapply visit_step; eauto.
Qed.
Lemma pinv_0 : pinv [] (mk_parts (CInt 1) []).
Proof. split; cbn; auto; [apply one_exnum|split; constructor]. Qed.

Lemma flat_factors l : Forall exact l -> Forall monomial l -> Forall simple (flat_map factors l).
Proof.
  induction 1 as [|e l He Hl IH]; intros M; cbn; auto. apply Forall_app. split; [apply factors_simple; auto; exact (Forall_inv M)|].
  apply IH. exact (Forall_inv_tail M).
Qed.

Definition pw (kv : expr * expr) : expr := if is_one (snd kv) then fst kv else EPow (fst kv) (snd kv).

Lemma keys_atom l p : Forall simple l -> pinv l p -> Forall (fun kv => is_atom (fst kv) = true /\ exnum (snd kv)) (p_terms p).
Proof.
  intros Hl [S1 S2 S3 S4]. apply Forall_forall. intros [k x] Hin.
  assert (HT := S3). destruct HT as [_ HT]. rewrite Forall_forall in HT. destruct (HT _ Hin) as [Hk Hx]. cbn in Hk, Hx. split; auto. cbn.
  apply (lookup_iff I) in Hin; auto. specialize (S4 k Hk). rewrite Hin in S4. destruct S4 as [_ S4].
  apply Exists_exists in S4 as (e & E1 & [v E2]). rewrite Forall_forall in Hl. destruct (Hl e E1) as (_ & M & N).
  unfold mterm_of in E2. destruct (coeff_of e) eqn:EC; [discriminate|].
  destruct e; try discriminate EC; try discriminate N; injection E2 as <- <-; try exact M. apply M.
Qed.

Lemma create_loop l : Forall (fun kv => is_atom (fst kv) = true /\ exnum (snd kv) /\ is_zero (snd kv) = false) l ->
  forall a c a' c', efold (create_mul_step I r) l (a, c) = Ok (a', c') -> a' = a ++ map pw l /\ c' = c.
Proof.
  induction 1 as [|[b x] l (Ha & Hx & Hz) Hl IH]; intros a c a' c' H; cbn [efold] in H.
  - injection H as <- <-. rewrite app_nil_r. auto.
  - binv H. destruct x0 as [a1 c1]. unfold create_mul_step in E. binv E. apply Hp in E0; auto. cbn [fst snd] in *.
    assert (HN : has_numeric_coefficient x0 = false).
    { subst x0. destruct (is_one x); [|reflexivity]. destruct b; try discriminate Ha; reflexivity. }
    rewrite HN in E. injection E as <- <-. apply IH in H. destruct H as [-> ->]. split; auto. rewrite <- app_assoc. cbn [app map].
    unfold pw at 1. cbn [fst snd]. subst x0. reflexivity.
Qed.

Lemma make_mul_unique l l' e e' : Permutation l l' -> Forall exact l -> make_mul I l = Ok e -> make_mul I l' = Ok e' -> e = e'.
Proof.
  intros HP He H H'. unfold make_mul in *. binv H. binv H'. injection H as <-. injection H' as <-. f_equal.
  apply (sort_terms_unique I l l' x x0); auto.
Qed.
Lemma maybe_new_mul_unique l l' e e' : Permutation l l' -> Forall exact l -> maybe_new_mul I l = Ok e -> maybe_new_mul I l' = Ok e' -> e = e'.
Proof.
  intros HP He H H'. pose proof (Permutation_length HP) as HL.
  destruct l as [|a1 [|a2 a]], l' as [|b1 [|b2 b]]; try discriminate HL; cbn [maybe_new_mul] in *.
  - congruence.
  - apply Permutation_length_1 in HP. congruence.
  - eapply make_mul_unique; eauto.
Qed.

Lemma create_mul_unique l l' p p' e e' : (forall l, Permutation (i_iter I l) l) ->
  Forall simple l -> Permutation l l' -> pinv l p -> pinv l' p' ->
  create_multiplication I r (normalize p) = Ok e -> create_multiplication I r (normalize p') = Ok e' -> e = e'.
Proof.
  intros HI Hl HP S S' H H'.
  assert (Hl' : Forall simple l') by (apply (Permutation_Forall HP); auto).
  assert (Hle : Forall exact l) by (eapply Forall_impl; [|exact Hl]; intros a Ha; apply Ha).
  destruct (terms_perm I amul (AR 1) amul_comm amul_assoc _ _ _ _ _ _ Hle HP S S') as [Y1 Y2].
  assert (KA : forall l p, Forall simple l -> pinv l p ->
     Forall (fun kv => is_atom (fst kv) = true /\ exnum (snd kv) /\ is_zero (snd kv) = false) (i_iter I (p_terms (normalize p)))).
  { clear - HI. intros l p Hl S. apply (Permutation_Forall (Permutation_sym (HI (p_terms (normalize p))))).
    apply Forall_forall. intros kv Hin. cbn [p_terms normalize] in Hin. apply filter_In in Hin as [H1 H2].
    pose proof (keys_atom l p Hl S) as K. rewrite Forall_forall in K. destruct (K _ H1). split; auto. split; auto.
    destruct (is_zero (snd kv)); [discriminate|auto]. }
  unfold create_multiplication in H, H'. binv H. binv H'. destruct x as [a c], x0 as [a' c'].
  apply create_loop in E; [|apply (KA l); auto]. apply create_loop in E0; [|apply (KA l'); auto]. destruct E as [-> ->], E0 as [-> ->].
  cbn [app] in *. binv H. binv H'. cbn [p_coeff normalize] in E, E0.
  assert (x0 = x) by (symmetry; eapply (expr_of_unique (p_coeff p) (p_coeff p')); eauto; [apply S|apply S']). subst x0.
  destruct (is_zero x || is_undefined x); [congruence|].
  assert (HPa : Permutation (map pw (i_iter I (p_terms (normalize p)))) (map pw (i_iter I (p_terms (normalize p'))))).
  { apply Permutation_map. rewrite !HI. apply normalize_terms. auto. }
  assert (HX : Forall exact (map pw (i_iter I (p_terms (normalize p))))).
  { apply Forall_forall. intros y Hy. apply in_map_iff in Hy as ([k v] & <- & Hy).
    apply (Permutation_in _ (HI _)) in Hy. cbn [p_terms normalize] in Hy. apply filter_In in Hy as [Hy _].
    destruct S as [_ _ [_ S3] _]. rewrite Forall_forall in S3. destruct (S3 _ Hy) as [Z1 [Z2 _]]. unfold pw. cbn [fst snd] in *.
    destruct (is_one v); [auto|split; auto]. }
  assert (HXx : exact x \/ x = EInf).
  { apply expr_of_exact in E; [|apply S]. destruct (absc (p_coeff p)); auto. destruct E as [[E _] _]. auto. subst x. left. exact Logic.I. }
  set (A := map pw (i_iter I (p_terms (normalize p)))) in *. set (B := map pw (i_iter I (p_terms (normalize p')))) in *. clearbody A B.
  assert (GG : forall e e', maybe_new_mul I (if is_one x then A else A ++ [x]) = Ok e -> maybe_new_mul I (if is_one x then B else B ++ [x]) = Ok e' -> e = e').
  { intros f f' F F'. destruct (is_one x).
    - eapply maybe_new_mul_unique; eauto.
    - eapply maybe_new_mul_unique; [| |exact F|exact F']; [apply Permutation_app_tail; auto|]. apply Forall_app. split; auto. constructor; auto.
      destruct HXx as [| ->]; auto. exact Logic.I. }
  destruct A as [|[] [|]]; try (destruct B as [|[] [|]]; try (eapply GG; eauto; fail);
    try (apply Permutation_length in HPa; discriminate HPa); apply Permutation_length_1 in HPa; discriminate HPa).
  destruct B as [|b1 [|]]; try (apply Permutation_length in HPa; discriminate HPa). apply Permutation_length_1 in HPa. subst b1.
  destruct (is_one x); congruence.
Qed.

Lemma mul_parts_unique l l' e e' : (forall l, Permutation (i_iter I l) l) -> Forall exact l -> Forall monomial l -> Permutation l l' ->
  mul_parts I r l = Ok e -> mul_parts I r l' = Ok e' -> e = e'.
Proof.
  intros HI Hl Hm HP H H'. unfold mul_parts in *. binv H. binv H'. rewrite mul_visit_all in E, E0.
  assert (Hl' : Forall exact l') by (apply (Permutation_Forall HP); auto).
  assert (Hm' : Forall monomial l') by (apply (Permutation_Forall HP); auto).
  apply visit_loop with (l0 := []) in E; auto using pinv_0, flat_factors.
  apply visit_loop with (l0 := []) in E0; auto using pinv_0, flat_factors. cbn [app] in E, E0.
  eapply create_mul_unique; [exact HI|apply (flat_factors l); auto| |exact E|exact E0|exact H|exact H'].
  apply Permutation_flat_map. auto.
Qed.

Lemma mul2_body_unique a b e e' : (forall l, Permutation (i_iter I l) l) -> exact a -> exact b -> monomial a -> monomial b ->
  mul2_body I r a b = Ok e -> mul2_body I r b a = Ok e' -> e = e'.
Proof.
  intros HI Ha Hb Ma Mb H H'.
  assert (G : mul_parts I r [a; b] = Ok e -> mul_parts I r [b; a] = Ok e' -> e = e').
  { apply mul_parts_unique; auto. apply perm_swap. }
  destruct a; destruct b; cbn [mul2_body is_num] in H, H'; auto; congruence.
Qed.
End Mul.

Lemma pow_atom I n b x e : is_atom b = true -> exnum x -> is_zero x = false -> e_pow I n b x = Ok e ->
  e = if is_one x then b else EPow b x.
Proof.
  intros Hb [Hx Hn] Hz H. destruct n as [|[|n]]; try discriminate H.
  cbn [e_pow ops_n o_pow step_ops] in H. unfold pow_body in H. cbn [o_simp ops_n step_ops] in H. unfold simp_body in H.
  assert (N : pow_numerics I (ops_n I n) b x = Ok None).
  { destruct b; try discriminate Hb; destruct x; try discriminate Hn; try contradiction Hx; reflexivity. }
  rewrite N in H. cbn [bind] in H.
  assert (O : is_one b || is_negative_one b = false) by (destruct b; try discriminate Hb; reflexivity). rewrite O in H. cbn [andb] in H.
  assert (S : simp_const I (ops_n I n) b x = Ok (if is_one x then Some b else None)).
  { assert (T : simp_tail (ops_n I n) b x = Ok (if is_one x then Some b else None)).
    { clear O. unfold simp_tail. rewrite Hz. destruct (is_one x) eqn:OX; destruct x; try discriminate Hn; cbn [is_inf]; auto; destruct b; try discriminate Hb; reflexivity. }
    assert (M : maybe_exp_arg I (ops_n I n) b x = Ok None) by (destruct b; try discriminate Hb; try reflexivity; destruct f; try discriminate Hb; reflexivity).
    assert (P : simp_pow I (ops_n I n) b x = Ok (if is_one x then Some b else None)).
    { unfold simp_pow, simp_exp. rewrite M. cbn [bind]. rewrite T. destruct b; try discriminate Hb; reflexivity. }
    unfold simp_const. rewrite P. destruct b; try discriminate Hb; try reflexivity. destruct c; [discriminate Hb|reflexivity]. }
  rewrite S in H. cbn [bind] in H. destruct (is_one x); injection H as <-; auto.
Qed.

Theorem e_mul_perm I n n' l l' e e' : impl_ok I -> Forall exact l -> Forall monomial l -> Permutation l l' ->
  e_mul I n l = Ok e -> e_mul I n' l' = Ok e' -> e = e'.
Proof.
  intros [HI _] Hl Hm HP H H'.
  assert (M : forall k m o, (k <= m)%nat -> e_mul I k o = Ok e \/ e_mul I k o = Ok e' -> e_mul I m o = e_mul I k o).
  { intros k m o Hk HO. destruct (le_mul _ _ (ops_n_le I k m Hk) o) as [X|X].
    - unfold e_mul in HO. destruct HO as [HO|HO]; congruence.
    - unfold e_mul. congruence. }
  rewrite <- (M n (Nat.max n n') l) in H by (auto; lia). rewrite <- (M n' (Nat.max n n') l') in H' by (auto; lia).
  assert (HL := Permutation_length HP).
  destruct (Nat.max n n') as [|N]; [discriminate|]. cbn [e_mul ops_n o_mul step_ops] in H, H'.
  destruct l as [|a [|b [|c l]]], l' as [|a' [|b' [|c' l']]]; try discriminate HL; cbn [mul_body] in H, H'.
  - discriminate.
  - apply Permutation_length_1 in HP. congruence.
  - apply Permutation_length_2 in HP. destruct HP as [[-> ->]|[-> ->]]; [congruence|].
    pose proof (Forall_inv Hl). pose proof (Forall_inv (Forall_inv_tail Hl)). pose proof (Forall_inv Hm). pose proof (Forall_inv (Forall_inv_tail Hm)).
    destruct N as [|N]; [discriminate|]. cbn [ops_n o_mul2 step_ops] in H, H'.
    eapply (mul2_body_unique I (ops_n I N)); [| |exact HI| | | | |exact H|exact H']; auto.
    + intros u v w Hu Hv Hw. eapply (add_numbers I N); eauto.
    + intros u v w Hu Hv Hz Hw. eapply (pow_atom I N); eauto.
  - eapply (mul_parts_unique I (ops_n I N)); [| |exact HI|exact Hl|exact Hm|exact HP|exact H|exact H'].
    + intros u v w Hu Hv Hw. eapply (add_numbers I N); eauto.
    + intros u v w Hu Hv Hz Hw. eapply (pow_atom I N); eauto.
Qed.
