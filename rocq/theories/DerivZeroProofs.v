(** Sums of zeros, and products with zero. *)
From Coq Require Import String List ZArith Reals Bool Permutation Lra Lia.
From Verif Require Import Outcome CheckedIntModel CheckedIntSpec CheckedIntProofs RationalModel RationalSpec RationalProofs IntFloatModel ExprModel ExprSpec ValProofs
  ExprProofs NumProofs BuildModel BuildProofs PowProofs.
Import ListNotations.
Open Scope R_scope.
Open Scope outcome_scope.

Lemma add_terms_zero I r l : Forall (fun e => e = EInt 0) l -> efold (add_terms I r) l (mk_parts (CInt 0) []) = Ok (mk_parts (CInt 0) []).
Proof. induction 1 as [|e l -> _ IH]; [reflexivity|]. exact IH. Qed.

Lemma add_zero I n l v : impl_ok I -> Forall (fun e => e = EInt 0) l -> e_add I n l = Ok v -> v = EInt 0.
Proof.
  intros HI Hl H. unfold e_add in H. destruct n as [|n]; [discriminate|]. cbn [ops_n step_ops o_add] in H.
  assert (G : add_parts I (ops_n I n) l = Ok v -> v = EInt 0).
  { clear H. intros H. unfold add_parts in H. rewrite add_terms_zero in H by auto. cbn [bind] in H.
    unfold create_addition in H. cbn in H. pose proof (proj1 HI []) as P. apply Permutation_sym, Permutation_nil in P.
    rewrite P in H. cbn in H. congruence. }
  unfold add_body in H. destruct l as [|a [|b [|c l]]]; [discriminate| | |auto].
  - inversion Hl; subst. congruence.
  - inversion Hl as [|? ? -> H1]; subst. inversion H1; subst. cbn in H. congruence.
Qed.

Definition zt (c : coeff) : Prop := cval c = Rv 0 \/ cval c = Top.

Lemma cval_cases c : cval c = Top \/ exists x, cval c = Rv x.
Proof. destruct c; cbn; eauto. Qed.

Lemma mul_num_zt a b c : cwf a -> cwf b -> zt a -> mul_num a b = Ok c -> zt c.
Proof.
  intros Ha Hb Hz H.
  assert (F : forall f, zt (nonzero_float f)) by (intros f; unfold nonzero_float; destruct (f64_eq f f64_zero); [left|right]; reflexivity).
  assert (T : zt CUndef /\ zt CInf) by (split; right; reflexivity). destruct T as [T1 T2].
  destruct (cval_cases b) as [Eb|[y Eb]].
  - destruct b; try discriminate Eb; destruct a; cbn in H; try (injection H as <-; auto; fail);
      repeat match goal with H : Ok (if ?c then _ else _) = Ok _ |- _ => destruct c end; injection H as <-; auto.
  - destruct Hz as [Hz|Hz].
    + destruct (mul_num_inv _ _ _ Ha Hb H) as [_ V]. rewrite Hz, Eb in V. cbn in V. left. rewrite V. f_equal. ring.
    + destruct a; try discriminate Hz; destruct b; try discriminate Eb; cbn in H; try (injection H as <-; auto; fail);
        repeat match goal with H : Ok (if ?c then _ else _) = Ok _ |- _ => destruct c end; injection H as <-; auto.
Qed.

Section Zero.
Variable I : impl.
Hypothesis HI : impl_ok I.
Variable s : env.
Hypothesis Henv : env_ok s.

Lemma create_zero_loop r : spec_ops s r -> forall l args c args' c', cwf c -> Forall (fun kv => wf s (fst kv) /\ wf s (snd kv)) l -> zt c ->
  efold (create_mul_step I r) l (args, c) = Ok (args', c') -> zt c'.
Proof.
  intros Hr. induction l as [|kv l IH]; intros args c args' c' Hc Hl Hz H; apply efold_inv in H.
  - injection H as -> ->. auto.
  - destruct H as ([a1 c1] & E1 & E2). inversion Hl as [|? ? [W1 W2] Hl']; subst.
    assert (K : cwf c1 /\ zt c1); [|destruct K; eapply IH; eauto].
    unfold create_mul_step in E1. binv E1. destruct (s_pow s r Hr _ _ _ W1 W2 E) as [P1 _].
    destruct (has_numeric_coefficient x); [|injection E1 as <- <-; auto]. binv E1. destruct x0 as [pc m]. binv E1. injection E1 as <- <-.
    destruct (as_coeff_and_mul_spec I s x pc m E0 P1) as (A1 & _ & _ & A4 & _). rewrite A4 in E3.
    destruct (coeff_of pc) as [k|] eqn:Ek; [|injection E3 as <-; auto].
    destruct (coeff_of_inv _ _ A1 Ek) as [K1 _]. split; [exact (proj1 (mul_num_inv _ _ _ Hc K1 E3))|exact (mul_num_zt _ _ _ Hc K1 Hz E3)].
Qed.

Lemma mul_zero n : forall z v, wf s z -> eval s z <> Top -> e_mul2 I n z (EInt 0) = Ok v -> v = EInt 0.
Proof.
  induction n as [|n IH]; intros z v Hw Ht H; [discriminate|].
  pose proof (spec_ops_n I s HI Henv n) as Hr.
  unfold e_mul2 in H. cbn [ops_n step_ops o_mul2] in H. set (r := ops_n I n) in *.
  assert (G : mul_parts I r [z; EInt 0] = Ok v -> v = EInt 0).
  { clear H. intros H. unfold mul_parts in H. binv H. cbn [efold] in E. binv E. binv E. injection E as <-.
    assert (Hp : mwf s (mk_parts (CInt 1) [])) by (split; cbn; auto; unfold_range; lia).
    apply (mul_visit_spec I s r Hr) in E0; auto. destruct E0 as [M1 V1].
    assert (V0 : mval s (mk_parts (CInt 1) []) = Rv 1) by (cbn; f_equal; ring). rewrite V0, vmul_1_l in V1.
    assert (N1 : mval s x0 <> Top) by (intros X; rewrite X in V1; apply refines_Top_l in V1; auto).
    pose proof E1 as E1'. apply (mul_visit_spec I s r Hr) in E1; [|exact M1|apply (wf_numbers s)]. destruct E1 as [M2 V2].
    assert (Z2 : mval s x1 = Rv 0).
    { cbn [eval] in V2. destruct (mval s x0) as [y| |]; [|cbn in V2; destruct (Req_EM_T 0 0); [|lra]|congruence]; cbn in V2.
      - rewrite V2. f_equal. ring. - exact V2. }
    assert (Zc : zt (p_coeff x1)).
    { cbn [mul_visit coeff_of] in E1'. binv E1'. injection E1' as <-. cbn [p_coeff]. left.
      assert (I0 : cwf (CInt 0)) by (cbn; unfold_range; lia). destruct (mul_num_inv _ _ _ (proj1 M1) I0 E) as [_ V].
      destruct (cval_cases (p_coeff x0)) as [X|[y X]].
      - exfalso. apply N1. unfold mval. rewrite X. reflexivity.
      - rewrite X in V. cbn in V. rewrite V. f_equal. ring. }
    destruct (normalize_prod s _ M2) as [M3 V3]. rewrite Z2 in V3. cbn in V3.
    unfold create_multiplication in H. binv H. destruct x as [args cc]. binv H.
    pose proof (proj1 HI (p_terms (normalize x1))) as HP. pose proof E as E'.
    assert (HF : Forall (fun kv => wf s (fst kv) /\ wf s (snd kv)) (i_iter I (p_terms (normalize x1)))).
    { eapply Permutation_Forall; [apply Permutation_sym, HP|apply M3]. }
    apply (create_mul_loop_spec I s r Hr) in E; auto; [|constructor|apply M3]. destruct E as (L1 & L2 & L3).
    cbn [map vprod fold_right] in L3. rewrite vmul_1_r, (tprod_perm s _ _ HP) in L3.
    fold (mval s (normalize x1)) in L3. rewrite V3 in L3. cbn in L3.
    apply create_zero_loop in E'; auto; [|apply M3].
    destruct E' as [Ec|Ec]; [|rewrite Ec in L3; discriminate].
    destruct (expr_of_inv _ _ L2 E0) as (X1 & X2 & _).
    assert (Zx : x = EInt 0).
    { destruct cc; cbn in Ec, E0; try discriminate.
      - injection Ec as Ec. apply eq_IZR in Ec. subst. congruence.
      - injection Ec as Ec. apply of_rat_inv in E0; [|exact L2]. destruct E0 as (_ & _ & _ & [[-> _]|[-> Hd]]).
        + unfold rat_val in Ec. f_equal. pose proof (rat_val_sign _ L2) as (_ & Q & _). apply Q. exact Ec.
        + exfalso. apply (canon_nonint _ L2 Hd). exists 0%Z. exact Ec. }
    subst x. cbn in H. congruence. }
  unfold mul2_body in H. destruct z; try (apply G; exact H). cbn in H.
  unfold multiply_into_addition in H. binv H. apply wf_EAdd in Hw. apply emap_inv in E.
  eapply (add_zero I n x); eauto.
  cbn [eval] in Ht. clear H v G. revert Ht Hw. induction E as [|a b l x Eab E IHl]; intros Ht Hw; constructor.
  - apply (IH a b); auto; [now inversion Hw|]. intros X. apply Ht. cbn [map]. rewrite vsum_cons, X. reflexivity.
  - apply IHl; [|now inversion Hw]. intros X. apply Ht. cbn [map]. rewrite vsum_cons, X. apply vadd_top_r.
Qed.
End Zero.
