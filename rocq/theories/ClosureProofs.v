(** What holds of the parts of the operands holds of the parts of the result: a property of expressions that all
    constants have and that a sum, product, power or function call has exactly when its operands have it is kept
    by all simplifying constructors.  Logarithms are the exception: theirs is a condition of its own. *)
From Coq Require Import String List ZArith Bool Permutation.
From Flocq Require Import IEEE754.BinarySingleNaN.
From Verif Require Import Outcome CheckedIntModel RationalModel IntUtilsModel IntFloatModel ExprModel ExprSpec ExprProofs OrderProofs NumProofs BuildModel BuildProofs FuncModel.
Import ListNotations.
Open Scope outcome_scope.

Record closed (Q : expr -> Prop) : Prop := mk_closed {
  cl_int : forall z, Q (EInt z);
  cl_rat : forall q, Q (ERat q);
  cl_flt : forall f, Q (EFlt f);
  cl_sym : forall c, Q (ESym c);
  cl_inf : Q EInf;
  cl_imag : Q EImag;
  cl_undef : Q EUndef;
  cl_mul : forall l, Q (EMul l) <-> Forall Q l;
  cl_add : forall l, Q (EAdd l) <-> Forall Q l;
  cl_pow : forall a b, Q (EPow a b) <-> Q a /\ Q b;
  cl_fun : forall f l, f <> Flog -> (Q (EFun f l) <-> Forall Q l)
}.

Section Closed.
Context (I : impl) (HI : impl_ok I) (Q : expr -> Prop) (C : closed Q).

Lemma Q_int z : Q (EInt z). Proof. apply (cl_int Q C). Qed.
Lemma Q_rat q : Q (ERat q). Proof. apply (cl_rat Q C). Qed.
Lemma Q_flt f : Q (EFlt f). Proof. apply (cl_flt Q C). Qed.
Lemma Q_sym c : Q (ESym c). Proof. apply (cl_sym Q C). Qed.
Lemma Q_inf : Q EInf. Proof. apply (cl_inf Q C). Qed.
Lemma Q_imag : Q EImag. Proof. apply (cl_imag Q C). Qed.
Lemma Q_undef : Q EUndef. Proof. apply (cl_undef Q C). Qed.
Local Hint Resolve Q_int Q_rat Q_flt Q_sym Q_inf Q_imag Q_undef : core.

Definition Qp (p : parts) : Prop := Forall (fun kv => Q (fst kv) /\ Q (snd kv)) (p_terms p).

Record keeps (r : ops) : Prop := mk_keeps {
  k_add : forall l e, Forall Q l -> o_add r l = Ok e -> Q e;
  k_mul2 : forall a b e, Q a -> Q b -> o_mul2 r a b = Ok e -> Q e;
  k_mul : forall l e, Forall Q l -> o_mul r l = Ok e -> Q e;
  k_pow : forall a b e, Q a -> Q b -> o_pow r a b = Ok e -> Q e;
  k_simp : forall a b e, Q a -> Q b -> o_simp r a b = Ok (Some e) -> Q e;
  k_visit : forall p e p', Qp p -> Q e -> o_visit r p e = Ok p' -> Qp p'
}.

Lemma Q_of_float f : Q (of_float f).
Proof. unfold of_float. destruct (is_nan f); auto. destruct (is_finite f); auto. Qed.
Lemma Q_of_rat q e : of_rat q = Ok e -> Q e.
Proof. unfold of_rat. intros H. binv H. destruct x; injection H as <-; auto. Qed.
Lemma Q_expr_of c e : expr_of c = Ok e -> Q e.
Proof. destruct c; cbn; intros H; try (injection H as <-; auto using Q_of_float). eapply Q_of_rat; eauto. Qed.
Lemma Q_perm l m : Permutation l m -> Forall Q l -> Forall Q m.
Proof. intros P. rewrite !Forall_forall. intros H x Hx. apply H. eapply Permutation_in; [apply Permutation_sym|]; eauto. Qed.
Lemma Q_make_mul l e : make_mul I l = Ok e -> Forall Q l -> Q e.
Proof. intros H Hl. apply make_mul_inv in H. destruct H as (m & -> & P). apply (cl_mul Q C). eapply Q_perm; eauto. Qed.
Lemma Q_make_add l e : make_add I l = Ok e -> Forall Q l -> Q e.
Proof. intros H Hl. apply make_add_inv in H. destruct H as (m & -> & P). apply (cl_add Q C). eapply Q_perm; eauto. Qed.
Lemma Q_maybe_new_mul l e : maybe_new_mul I l = Ok e -> Forall Q l -> Q e.
Proof.
  intros H Hl. destruct l as [|a [|b l]]; cbn [maybe_new_mul] in H.
  - injection H as <-. auto.
  - injection H as <-. exact (Forall_inv Hl).
  - eapply Q_make_mul; eauto.
Qed.
Lemma Forall_filter {A} (P : A -> Prop) f l : Forall P l -> Forall P (filter f l).
Proof. rewrite !Forall_forall. intros H x Hx. apply filter_In in Hx. apply H, Hx. Qed.
Lemma Q_split l c m : split_multiplication I l = Ok (c, m) -> Forall Q l -> Q c /\ Q m.
Proof.
  intros H Hl. unfold split_multiplication in H. pose proof (Forall_filter Q is_num l Hl) as Hf.
  destruct (filter is_num l) as [|a t] eqn:E.
  - injection H as <- <-. split; auto. now apply (cl_mul Q C).
  - binv H. binv H. injection H as <- <-. split; [eapply Q_maybe_new_mul; eauto|].
    eapply Q_maybe_new_mul; [exact E1|]. now apply Forall_filter.
Qed.
Lemma Q_as_coeff e c m : as_coeff_and_mul I e = Ok (c, m) -> Q e -> Q c /\ Q m.
Proof.
  intros H He. destruct e; cbn [as_coeff_and_mul] in H; try (injection H as <- <-; auto; fail).
  apply (cl_mul Q C) in He. destruct l as [|a [|b [|d l]]]; try (eapply Q_split; eauto; fail).
  pose proof (Forall_inv He) as Ha. pose proof (Forall_inv (Forall_inv_tail He)) as Hb.
  destruct (is_num a && negb (is_num b)); [injection H as <- <-; auto|].
  destruct (negb (is_num a) && is_num b); [injection H as <- <-; auto|]. eapply Q_split; eauto.
Qed.
Lemma Q_emap {A} (f : A -> outcome expr) l m : emap f l = Ok m -> Forall (fun a => forall e, f a = Ok e -> Q e) l -> Forall Q m.
Proof. intros H. apply emap_inv in H. induction H; intros Hl; constructor; [apply (Forall_inv Hl); auto|]. apply IHForall2, (Forall_inv_tail Hl). Qed.

Lemma Q_lookup k l v : lookup I k l = Some v -> Forall (fun kv => Q (fst kv) /\ Q (snd kv)) l -> Q v.
Proof. induction l as [|[a w] l IH]; cbn [lookup]; [discriminate|]. intros H Hl. destruct (key_eq I a k); [injection H as <-; apply (Forall_inv Hl)|]. apply IH; auto. apply (Forall_inv_tail Hl). Qed.
Lemma Q_update k v l : Q v -> Forall (fun kv => Q (fst kv) /\ Q (snd kv)) l -> Forall (fun kv => Q (fst kv) /\ Q (snd kv)) (update I k v l).
Proof. intros Hv. induction 1 as [|[a w] l [Ha Hw] Hl IH]; cbn [update]; [constructor|]. destruct (key_eq I a k); constructor; auto. Qed.
Lemma Q_erase k l : Forall (fun kv => Q (fst kv) /\ Q (snd kv)) l -> Forall (fun kv => Q (fst kv) /\ Q (snd kv)) (erase I k l).
Proof. induction 1 as [|[a w] l [Ha Hw] Hl IH]; cbn [erase]; [constructor|]. destruct (key_eq I a k); auto. Qed.

Section Step.
Context (r : ops) (K : keeps r).

Lemma Q_add_leaf p e p' : Qp p -> Q e -> add_term_leaf I r p e = Ok p' -> Qp p'.
Proof.
  intros Hp He H. unfold add_term_leaf in H. destruct (coeff_of e).
  - binv H. injection H as <-. exact Hp.
  - binv H. destruct x as [c m]. destruct (Q_as_coeff _ _ _ E He) as [Hc Hm]. destruct (lookup I m (p_terms p)) eqn:L.
    + binv H. injection H as <-. apply Q_update; auto. eapply (k_add r K); [|exact E0]. constructor; [|auto]. eapply Q_lookup; eauto.
    + injection H as <-. apply Forall_app. split; [exact Hp|]. constructor; auto.
Qed.
Lemma Q_fold {A S} (f : S -> A -> outcome S) (P : S -> Prop) l : forall s s', Forall (fun a => forall s s', P s -> f s a = Ok s' -> P s') l ->
  P s -> efold f l s = Ok s' -> P s'.
Proof.
  induction l as [|a l IH]; intros s s' Hl Hs H; apply efold_inv in H; [congruence|]. destruct H as (s1 & E & H).
  eapply IH; [exact (Forall_inv_tail Hl)| |exact H]. eapply (Forall_inv Hl); eauto.
Qed.
Lemma Q_add_terms e : forall p p', Qp p -> Q e -> add_terms I r p e = Ok p' -> Qp p'.
Proof.
  induction e using expr_ind'; intros p p' Hp He H0; cbn [add_terms] in H0; try (eapply Q_add_leaf; [exact Hp|exact He|exact H0]).
  apply (cl_add Q C) in He. eapply (Q_fold (add_terms I r) Qp); [|exact Hp|exact H0]. rewrite Forall_forall in *. intros a Ha s s' Hs. apply H; auto.
Qed.
Lemma Q_normalize p : Qp p -> Qp (normalize p).
Proof. intros H. apply Forall_filter. exact H. Qed.
Lemma Q_iter l : Forall (fun kv => Q (fst kv) /\ Q (snd kv)) l -> Forall (fun kv => Q (fst kv) /\ Q (snd kv)) (i_iter I l).
Proof. intros H. apply Forall_forall. intros x Hx. rewrite Forall_forall in H. apply H. eapply Permutation_in; [apply (proj1 HI)|exact Hx]. Qed.
Lemma Q_create_addition p e : Qp p -> create_addition I r p = Ok e -> Q e.
Proof.
  intros Hp H. unfold create_addition in H. binv H. destruct (is_undefined x); [injection H as <-; auto|]. binv H.
  assert (Hx0 : Forall Q x0).
  { eapply Q_emap; [exact E0|]. eapply Forall_impl; [|apply Q_iter, Hp]. intros [m c] [Hm Hc] d Hd. cbn [fst snd] in *.
    unfold add_create_term in Hd. destruct (is_one c); [congruence|]. destruct (negb (is_mul m) && negb (is_mul c)).
    - eapply Q_make_mul; eauto.
    - eapply (k_mul2 r K); [| |exact Hd]; auto. }
  apply Q_expr_of in E. assert (A : Forall Q ((if is_zero x then [] else [x]) ++ x0)) by (destruct (is_zero x); cbn; auto).
  destruct ((if is_zero x then [] else [x]) ++ x0) as [|a [|b l]]; [injection H as <-; auto|injection H as <-; exact (Forall_inv A)|].
  eapply Q_make_add; eauto.
Qed.
Lemma Q_add_parts l e : Forall Q l -> add_parts I r l = Ok e -> Q e.
Proof.
  intros Hl H. unfold add_parts in H. binv H. eapply Q_create_addition; [|exact H]. apply Q_normalize.
  eapply (Q_fold (add_terms I r) Qp); [| |exact E]; [|constructor]. eapply Forall_impl; [|exact Hl]. intros a Ha s s' Hs. now apply Q_add_terms.
Qed.
Lemma Q_add_body l e : Forall Q l -> add_body I r l = Ok e -> Q e.
Proof.
  intros Hl H. unfold add_body in H. destruct l as [|a [|b [|c l]]]; [discriminate|injection H as <-; exact (Forall_inv Hl)| |eapply Q_add_parts; eauto].
  destruct (add_apply a b) as [[x y]|]; [|eapply Q_add_parts; eauto]. binv H. eapply Q_expr_of; eauto.
Qed.

Lemma Q_insert p b x p' : Qp p -> Q b -> Q x -> insert_power I r p b x = Ok p' -> Qp p'.
Proof.
  intros Hp Hb Hx H. unfold insert_power in H. destruct (lookup I b (p_terms p)) eqn:L.
  - binv H. apply (k_add r K) in E; [|constructor; [eapply Q_lookup; eauto|auto]]. binv H.
    assert (U : Qp (mk_parts (p_coeff p) (update I b x0 (p_terms p)))) by (apply Q_update; auto).
    destruct x1 as [v|]; [|injection H as <-; exact U]. destruct (is_mul v || is_pow v); [|injection H as <-; exact U].
    eapply (k_visit r K); [| |exact H]; [apply Q_erase; exact Hp|]. destruct (is_mul b || is_pow b); [|discriminate].
    eapply (k_simp r K); [| |exact E0]; auto.
  - injection H as <-. apply Forall_app. split; [exact Hp|]. constructor; auto.
Qed.
Lemma Q_mul_visit e : forall p p', Qp p -> Q e -> mul_visit I r p e = Ok p' -> Qp p'.
Proof.
  assert (D : forall e p p', Qp p -> Q e ->
    (match coeff_of e with Some c => let* c' := mul_num (p_coeff p) c in Ok (mk_parts c' (p_terms p)) | None => insert_power I r p e (EInt 1) end) = Ok p' -> Qp p').
  { intros x p p' Hp He H. destruct (coeff_of x); [binv H; injection H as <-; exact Hp|]. eapply Q_insert; [| | |exact H]; auto. }
  induction e using expr_ind'; intros p p' Hp He H0; cbn [mul_visit] in H0; try (eapply D; [exact Hp|exact He|exact H0]).
  - apply (cl_mul Q C) in He. eapply (Q_fold (mul_visit I r) Qp); [|exact Hp|exact H0]. rewrite Forall_forall in *. intros a Ha s s' Hs. apply H; auto.
  - apply (cl_pow Q C) in He. destruct He. eapply Q_insert; [| | |exact H0]; auto.
  - destruct f; try (eapply D; [exact Hp|exact He|exact H0]). destruct l as [|x l]; [eapply D; [exact Hp|exact He|exact H0]|].
    apply (cl_fun Q C) in He; [|discriminate]. eapply Q_insert; [| | |exact H0]; auto. exact (Forall_inv He).
Qed.
Lemma Q_into l c e : Forall Q l -> Q c -> multiply_into_addition r l c = Ok e -> Q e.
Proof.
  intros Hl Hc H. unfold multiply_into_addition in H. binv H. eapply (k_add r K); [|exact H]. eapply Q_emap; [exact E|].
  eapply Forall_impl; [|exact Hl]. intros a Ha d Hd. eapply (k_mul2 r K); [| |exact Hd]; auto.
Qed.
Lemma Q_create_mul p e : Qp p -> create_multiplication I r p = Ok e -> Q e.
Proof.
  intros Hp H. unfold create_multiplication in H. binv H. destruct x as [args cc].
  assert (A : Forall Q (fst (args, cc))).
  { eapply (Q_fold (create_mul_step I r) (fun s => Forall Q (fst s))); [| |exact E]; [|constructor]. eapply Forall_impl; [|apply Q_iter, Hp].
    intros [b x] [Hb Hx] [l c] s' Hl Hs. cbn [fst snd] in *. unfold create_mul_step in Hs. binv Hs. apply (k_pow r K) in E0; auto.
    destruct (has_numeric_coefficient x0).
    - binv Hs. destruct x1 as [pc m]. destruct (Q_as_coeff _ _ _ E1 E0) as [_ Hm]. binv Hs. injection Hs as <-. cbn [fst].
      destruct (is_one m); auto. apply Forall_app; auto.
    - injection Hs as <-. cbn [fst]. apply Forall_app; auto. }
  cbn [fst] in A. binv H. apply Q_expr_of in E0. destruct (is_zero x || is_undefined x); [injection H as <-; auto|].
  assert (G : maybe_new_mul I (if is_one x then args else args ++ [x]) = Ok e -> Q e).
  { intros G. eapply Q_maybe_new_mul; [exact G|]. destruct (is_one x); auto. apply Forall_app; auto. }
  destruct args as [|a [|b t]]; try exact (G H); [|destruct a; exact (G H)].
  destruct a; try exact (G H). destruct (is_one x); [injection H as <-; exact (Forall_inv A)|].
  eapply Q_into; [|exact E0|exact H]. apply (cl_add Q C). exact (Forall_inv A).
Qed.
Lemma Q_mul_parts l e : Forall Q l -> mul_parts I r l = Ok e -> Q e.
Proof.
  intros Hl H. unfold mul_parts in H. binv H. eapply Q_create_mul; [|exact H]. apply Q_normalize.
  eapply (Q_fold (mul_visit I r) Qp); [| |exact E]; [|constructor]. eapply Forall_impl; [|exact Hl]. intros a Ha s s' Hs. now apply Q_mul_visit.
Qed.
Lemma Q_mul2_body a b e : Q a -> Q b -> mul2_body I r a b = Ok e -> Q e.
Proof.
  intros Ha Hb H. assert (G : mul_parts I r [a; b] = Ok e -> Q e) by (apply Q_mul_parts; auto).
  assert (A : forall l x, Q (EAdd l) -> Q x -> multiply_into_addition r l x = Ok e -> Q e).
  { intros l x Hl Hx. apply Q_into; auto. now apply (cl_add Q C). }
  destruct a; cbn [mul2_body] in H; destruct b; try exact (G H);
    repeat match type of H with (if ?c then _ else _) = _ => destruct c end; try exact (G H); (eapply A; [| |exact H]; auto).
Qed.
Lemma Q_mul_body l e : Forall Q l -> mul_body I r l = Ok e -> Q e.
Proof.
  intros Hl H. destruct l as [|a [|b [|c l]]]; cbn [mul_body] in H; [discriminate|injection H as <-; exact (Forall_inv Hl)| |eapply Q_mul_parts; eauto].
  eapply (k_mul2 r K); [| |exact H]; [exact (Forall_inv Hl)|exact (Forall_inv (Forall_inv_tail Hl))].
Qed.

Lemma Q_pow_rat_int b z e : pow_rat_int b z = Ok e -> Q e.
Proof.
  unfold pow_rat_int. intros H. repeat match type of H with (if ?c then _ else _) = _ => destruct c; [injection H as <-; auto|] end.
  do 4 binv H. eapply Q_of_rat; exact H.
Qed.
Lemma Q_pow_int_int b z e : pow_int_int b z = Ok e -> Q e.
Proof.
  unfold pow_int_int. intros H. destruct (z <? 0)%Z.
  - destruct (b =? 0)%Z; [injection H as <-; auto|]. binv H. binv H. eapply Q_pow_rat_int; eauto.
  - destruct (_ && _); [injection H as <-; auto|]. binv H. injection H as <-. auto.
Qed.
Lemma Q_pow_int_rat b q e : pow_int_rat I r b q = Ok e -> Q e.
Proof.
  unfold pow_int_rat. intros H. destruct (den q <=? 0)%Z; [discriminate|]. destruct (b =? 1)%Z; [injection H as <-; auto|].
  destruct (b =? 0)%Z; [destruct (num q =? 0)%Z; [|destruct (num q <? 0)%Z]; injection H as <-; auto|].
  do 4 binv H. destruct x2 as [rc m]. binv H. destruct x2 as [[rc' m'] os].
  assert (O : Forall Q os).
  { destruct (b <? 0)%Z; [|injection E3 as <- <- <-; constructor]. unfold root_sign in E3. binv E3. destruct x2 as [ip fr]. binv E3. binv E3.
    assert (P : forall z, of_rat fr = Ok z -> Forall Q [EPow (EInt (-1)) z]).
    { intros z Hz. constructor; [|constructor]. apply (cl_pow Q C). split; auto. eapply Q_of_rat; eauto. }
    destruct (rat_eqb fr x3); [injection E3 as <- <- <-; auto|]. destruct (negb (num fr =? 0)%Z); [|injection E3 as <- <- <-; auto].
    destruct (root_find (den fr) m) as [[bb xx]|]; [destruct (xx =? num fr)%Z|]; binv E3; injection E3 as <- <- <-; auto. }
  binv H. binv H. eapply (k_mul r K); [|exact H]. apply Forall_app. split; [exact O|]. apply Forall_app. split.
  - eapply Q_emap; [exact E4|]. apply Forall_forall. intros kv _ d Hd. unfold root_operand in Hd. binv Hd. binv Hd. injection Hd as <-.
    apply (cl_pow Q C). split; auto. eapply Q_of_rat; eauto.
  - destruct (_ && _); [injection E5 as <-; auto|]. binv E5. injection E5 as <-. constructor; auto. eapply Q_of_rat; eauto.
Qed.
Lemma Q_pow_numerics a b e : pow_numerics I r a b = Ok (Some e) -> Q e.
Proof.
  intros H. assert (F : forall x y, Q (pow_float I x y)) by (intros; unfold pow_float; destruct (_ && _); auto).
  assert (N : forall x, Q (pow_inf x)) by (intros; unfold pow_inf; destruct (coeff_pos x); [|destruct (coeff_neg x)]; auto).
  destruct a; destruct b; cbn [pow_numerics] in H; try discriminate; try (injection H as <-; auto; fail); binv H; injection H as <-;
    eauto using Q_pow_int_int, Q_pow_rat_int, Q_pow_int_rat.
Qed.
Lemma Q_operate f e v : operate_on_float I r f e = Ok (Some v) -> Q v.
Proof.
  unfold operate_on_float. intros H. binv H. destruct x as [z|]; [|discriminate]. destruct (i_cfun I f z) as [re im].
  destruct (f64_eq im f64_zero); [injection H as <-; apply Q_of_float|]. binv H. injection H as <-. unfold of_complex in E0. binv E0.
  apply (k_mul2 r K) in E1; auto using Q_of_float. eapply (k_add r K); [|exact E0]. auto using Q_of_float.
Qed.
Lemma Q_exp e v : Q e -> exp_body I r e = Ok v -> Q v.
Proof.
  intros He H. unfold exp_body in H. destruct (is_zero e); [injection H as <-; auto|]. destruct (is_one e); [injection H as <-; auto|].
  destruct (_ || _); [injection H as <-; auto|]. binv H. destruct x; injection H as <-; [eapply Q_operate; eauto|].
  apply (cl_fun Q C); [discriminate|auto].
Qed.
Lemma Q_pows l q m : Forall Q l -> Q q -> emap (fun t => o_pow r t q) l = Ok m -> Forall Q m.
Proof. intros Hl Hq H. eapply Q_emap; [exact H|]. eapply Forall_impl; [|exact Hl]. intros a Ha d Hd. eapply (k_pow r K); [| |exact Hd]; auto. Qed.
Lemma Q_distribute l q v : Forall Q l -> Q q -> maybe_distribute r l q = Ok (Some v) -> Q v.
Proof.
  intros Hl Hq H. unfold maybe_distribute in H.
  pose proof (Forall_filter Q (fun t => is_non_negative (determine_set t)) l Hl) as A.
  pose proof (Forall_filter Q (fun t => negb (is_non_negative (determine_set t))) l Hl) as B.
  destruct (filter (fun t => is_non_negative (determine_set t)) l) as [|a t]; [discriminate|].
  destruct (filter (fun t => negb (is_non_negative (determine_set t))) l) as [|b u].
  - binv H. binv H. injection H as <-. eapply (k_mul r K); [|exact E0]. eapply Q_pows; [| |exact E]; auto.
  - binv H. binv H. binv H. binv H. binv H. injection H as <-. eapply (k_mul2 r K); [| |exact E3].
    + eapply (k_mul r K); [|exact E0]. eapply Q_pows; [| |exact E]; auto.
    + eapply (k_pow r K); [| |exact E2]; auto. eapply (k_mul r K); [|exact E1]. auto.
Qed.
Lemma Q_tail b e v : Q b -> Q e -> simp_tail r b e = Ok (Some v) -> Q v.
Proof.
  intros Hb He H. unfold simp_tail in H. destruct (is_inf e); [injection H as <-; auto|]. destruct (is_zero e); [injection H as <-; auto|].
  destruct (is_one e); [injection H as <-; auto|]. destruct b; try discriminate. apply (cl_mul Q C) in Hb. destruct e; try discriminate.
  - binv H. binv H. injection H as <-. eapply (k_mul r K); [|exact E0]. eapply Q_pows; [| |exact E]; auto.
  - eapply Q_distribute; [| |exact H]; auto.
Qed.
Lemma Q_simp_exp b e v : Q b -> Q e -> simp_exp I r b e = Ok (Some v) -> Q v.
Proof.
  intros Hb He H. unfold simp_exp in H. binv H. destruct x as [y|]; [|eapply Q_tail; [| |exact H]; auto]. injection H as <-.
  destruct b; try discriminate. destruct f; try discriminate. destruct l as [|x l]; try discriminate. cbn [maybe_exp_arg] in E.
  destruct (_ || _); [|discriminate]. binv E. binv E. injection E as <-. eapply Q_exp; [|exact E1]. eapply (k_mul2 r K); [| |exact E0]; auto.
  apply (cl_fun Q C) in Hb; [|discriminate]. exact (Forall_inv Hb).
Qed.
Lemma Q_simp_pow b e v : Q b -> Q e -> simp_pow I r b e = Ok (Some v) -> Q v.
Proof.
  intros Hb He H. unfold simp_pow in H. destruct b; try (eapply Q_simp_exp; [exact Hb|exact He|exact H]). binv H.
  destruct x; [|eapply Q_simp_exp; [exact Hb|exact He|exact H]]. binv H. binv H. injection H as <-. apply (cl_pow Q C) in Hb. destruct Hb as [H1 H2].
  eapply (k_pow r K); [| |exact E1]; auto. eapply (k_mul2 r K); [| |exact E0]; auto.
Qed.
Lemma Q_i_pow e : Q e -> forall q, of_rat q = Ok e -> Q (EPow EImag e).
Proof. intros. apply (cl_pow Q C). auto. Qed.
Lemma Q_simp_const b e v : Q b -> Q e -> simp_const I r b e = Ok (Some v) -> Q v.
Proof.
  intros Hb He H. unfold simp_const in H. destruct b; try (eapply Q_simp_pow; [exact Hb|exact He|exact H]).
  - destruct c; [|eapply Q_simp_pow; [exact Hb|exact He|exact H]]. binv H. injection H as <-. eapply Q_exp; [|exact E]; auto.
  - destruct e; try (eapply Q_simp_pow; [exact Hb|exact He|exact H]).
    + binv H. injection H as <-. unfold i_pow_int in E. binv E. destruct x0; try (injection E as <-; auto; fail). eapply Q_make_mul; [exact E|auto].
    + binv H. injection H as <-. unfold i_pow_rat in E. binv E. destruct x0 as [ip fr]. destruct (num fr <? 0)%Z; [discriminate|]. binv E.
      destruct x0.
      * binv E. injection E as <-. apply (cl_pow Q C). split; auto. eapply Q_of_rat; eauto.
      * binv E. eapply Q_make_mul; [exact E|]. constructor; [auto|]. constructor; [|auto]. apply (cl_pow Q C). split; auto. eapply Q_of_rat; eauto.
      * destruct (ip =? 1)%Z; [injection E as <-; apply (cl_pow Q C); auto|]. do 3 binv E. injection E as <-. apply (cl_pow Q C). split; auto. eapply Q_of_rat; eauto.
      * do 3 binv E. eapply Q_make_mul; [exact E|]. constructor; [auto|]. constructor; [|auto]. apply (cl_pow Q C). split; auto. eapply Q_of_rat; eauto.
Qed.
Lemma Q_simp_body b e v : Q b -> Q e -> simp_body I r b e = Ok (Some v) -> Q v.
Proof.
  intros Hb He H. unfold simp_body in H. binv H. destruct x; [injection H as <-; eapply Q_pow_numerics; eauto|].
  destruct (_ && _); [injection H as <-; auto|]. eapply Q_simp_const; [| |exact H]; auto.
Qed.
Lemma Q_pow_body b e v : Q b -> Q e -> pow_body r b e = Ok v -> Q v.
Proof.
  intros Hb He H. unfold pow_body in H. binv H. destruct x; injection H as <-; [eapply (k_simp r K); [| |exact E]; auto|]. apply (cl_pow Q C). auto.
Qed.
Lemma keeps_step : keeps (step_ops I r).
Proof.
  constructor; cbn [step_ops o_add o_mul2 o_mul o_pow o_simp o_visit].
  - apply Q_add_body. - apply Q_mul2_body. - apply Q_mul_body. - apply Q_pow_body. - apply Q_simp_body.
  - intros p e p' Hp He. now apply Q_mul_visit.
Qed.
End Step.

Lemma keeps_n n : keeps (ops_n I n).
Proof. induction n; [constructor; discriminate|]. now apply keeps_step. Qed.

Context (n : nat).
Lemma Q_e_add l e : Forall Q l -> e_add I n l = Ok e -> Q e.
Proof. apply (k_add _ (keeps_n n)). Qed.
Lemma Q_e_mul l e : Forall Q l -> e_mul I n l = Ok e -> Q e.
Proof. apply (k_mul _ (keeps_n n)). Qed.
Lemma Q_e_mul2 a b e : Q a -> Q b -> e_mul2 I n a b = Ok e -> Q e.
Proof. apply (k_mul2 _ (keeps_n n)). Qed.
Lemma Q_e_pow a b e : Q a -> Q b -> e_pow I n a b = Ok e -> Q e.
Proof. apply (k_pow _ (keeps_n n)). Qed.
Lemma Q_e_neg a e : Q a -> e_neg I n a = Ok e -> Q e.
Proof. intros H. apply Q_e_mul2; auto. Qed.
Lemma Q_e_div a b e : Q a -> Q b -> e_div I n a b = Ok e -> Q e.
Proof. intros Ha Hb H. unfold e_div in H. binv H. eapply Q_e_mul2; [| |exact H]; auto. eapply Q_e_pow; [| |exact E]; auto. Qed.
Lemma Q_sqrt a e : Q a -> sqrt_fn I n a = Ok e -> Q e.
Proof. intros Ha H. unfold sqrt_fn in H. binv H. eapply Q_e_pow; [| |exact H]; auto. eapply Q_e_div; [| |exact E]; auto. Qed.
Lemma Q_op f e v : operate_on_float I (ops_n I n) f e = Ok (Some v) -> Q v.
Proof. apply Q_operate, keeps_n. Qed.
Lemma Q_call f e : f <> Flog -> Q e -> Q (EFun f [e]).
Proof. intros Hf He. apply (cl_fun Q C); auto. Qed.

Lemma Q_finish f inv e v : f <> Flog -> (forall g, inv = Some g -> g <> Flog) -> Q e -> finish I n f inv e = Ok v -> Q v.
Proof.
  intros Hf Hi He H. unfold finish in H. binv H. destruct x; [injection H as <-; eapply Q_op; eauto|].
  destruct (_ || _); [injection H as <-; auto|]. assert (D : Q (EFun f [e])) by now apply Q_call.
  destruct inv as [g|]; [|injection H as <-; auto]. destruct e; try (injection H as <-; exact D).
  destruct l as [|x l]; [injection H as <-; exact D|]. destruct (String.eqb (fn_name g) (fn_name f0)) eqn:N; injection H as <-; [|exact D].
  assert (G : f0 <> Flog). { specialize (Hi g eq_refl). intros ->. destruct g; try discriminate N; congruence. }
  apply (cl_fun Q C) in He; [|exact G]. exact (Forall_inv He).
Qed.
Lemma Q_times_pi q e : times_pi I n q = Ok e -> Q e.
Proof. unfold times_pi. intros H. binv H. eapply Q_e_mul2; [| |exact H]; auto. eapply Q_of_rat; eauto. Qed.

Ltac trig_tac H :=
  repeat match type of H with
  | (if ?c then _ else _) = _ => destruct c
  | Ok _ = Ok _ => injection H as <-
  end; auto.

Lemma Q_trig : forall k f e v, f <> Flog -> Q e -> trig I n k f e = Ok v -> Q v.
Proof.
  induction k as [|k IH]; intros f e v Hf He H; cbn [trig] in H; [discriminate|]. destruct (has_imag e).
  - binv H. binv H. assert (Hx : Q x). { unfold divide_imag in E. destruct e; try (injection E as <-; auto; fail); (eapply Q_e_div; [| |exact E]; auto). }
    assert (Hy : Q x0) by (eapply IH; [|exact Hx|exact E0]; destruct f; cbn; congruence).
    destruct f; try (injection H as <-; exact Hy); (eapply Q_e_mul2; [| |exact H]; auto).
  - assert (N : forall g x y, g <> Flog -> Q x -> (let* m := e_neg I n x in let* z := trig I n k g m in e_neg I n z) = Ok y -> Q y).
    { intros g x y Hg Hx Hz. binv Hz. binv Hz. eapply Q_e_neg; [|exact Hz]. eapply IH; [| |exact E0]; auto. eapply Q_e_neg; [|exact E]. auto. }
    assert (M : forall g x y, g <> Flog -> Q x -> (let* m := e_neg I n x in trig I n k g m) = Ok y -> Q y).
    { intros g x y Hg Hx Hz. binv Hz. eapply IH; [| |exact Hz]; auto. eapply Q_e_neg; [|exact E]. auto. }
    assert (T : forall g q y, g <> Flog -> (let* x := times_pi I n q in Ok (EFun g [x])) = Ok y -> Q y).
    { intros g q y Hg Hz. binv Hz. injection Hz as <-. apply Q_call; auto. eapply Q_times_pi; eauto. }
    destruct f; try discriminate; unfold cos_body, sin_body, tan_body, cosh_body, sinh_body, tanh_body in H.
    1-3: binv H; destruct (pi_factor x); [binv H; try binv H|]; trig_tac H;
      first [eapply T; [|exact H]; discriminate|eapply N; [| |exact H]; auto; discriminate|eapply M; [| |exact H]; auto; discriminate
            |eapply Q_finish; [| | |exact H]; auto; discriminate].
    all: trig_tac H; first [eapply N; [| |exact H]; auto; discriminate|eapply M; [| |exact H]; auto; discriminate
            |eapply Q_finish; [| | |exact H]; auto; try discriminate; intros g Hg; injection Hg as <-; discriminate].
Qed.
Lemma Q_finish_inverse f e v : f <> Flog -> Q e -> finish_inverse I n f e = Ok v -> Q v.
Proof.
  intros Hf He H. unfold finish_inverse in H. destruct (_ || _); [injection H as <-; auto|]. binv H.
  destruct x; injection H as <-; [eapply Q_op; eauto|]. now apply Q_call.
Qed.
Lemma Q_pi_over d e : pi_over I n d = Ok e -> Q e.
Proof. apply Q_e_div; auto. Qed.
Lemma Q_odd_inverse f one : f <> Flog -> forall k e v, Q e -> odd_inverse I n f one k e = Ok v -> Q v.
Proof.
  intros Hf. induction k as [|k IH]; intros e v He H; cbn [odd_inverse] in H; [discriminate|].
  destruct (is_zero e); [injection H as <-; auto|]. destruct (is_one e); [eapply Q_pi_over; eauto|].
  destruct (is_negative_one e); [binv H; eapply Q_e_neg; [|exact H]; eapply Q_pi_over; eauto|].
  destruct (is_negative_number e); [|eapply Q_finish_inverse; [| |exact H]; auto]. binv H. binv H. eapply Q_e_neg; [|exact H].
  eapply IH; [|exact E0]. eapply Q_e_neg; [|exact E]. auto.
Qed.
Lemma Q_atan2 a b v : Q a -> Q b -> atan2_fn I n a b = Ok v -> Q v.
Proof.
  intros Ha Hb H. unfold atan2_fn in H. binv H.
  assert (Z : forall y x w, atan2_int I n y x = Ok (Some w) -> Q w).
  { clear -HI C. intros y x w H. unfold atan2_int in H. destruct (_ && _); [injection H as <-; auto|].
    destruct (_ && _); [binv H; injection H as <-; eapply Q_pi_over; eauto|]. destruct (_ && _); [injection H as <-; auto|].
    destruct (_ && _); [binv H; binv H; injection H as <-; eapply Q_e_neg; [|exact E0]; eapply Q_pi_over; eauto|].
    do 2 binv H. destruct (_ && _); [|discriminate]. binv H. injection H as <-.
    assert (M : forall z u, (let* t := e_mul2 I n (EInt z) (ESym Pi) in e_div I n t (EInt 4)) = Ok u -> Q u).
    { intros z u Hu. binv Hu. eapply Q_e_div; [| |exact Hu]; auto. eapply Q_e_mul2; [| |exact E2]; auto. }
    destruct (y <? 0)%Z; destruct (x <? 0)%Z; first [exact (M _ _ E1)|exact (M (-1)%Z _ E1)|exact (Q_pi_over _ _ E1)]. }
  assert (D : Q (EFun Fatan2 [a; b])) by (apply (cl_fun Q C); [discriminate|auto]).
  destruct x as [w|]; injection H as <-; [|exact D].
  destruct a; destruct b; try discriminate E; try (injection E as <-; auto using Q_of_float; fail). eapply Z; eauto.
Qed.
Lemma Q_abs e v : Q e -> abs_fn I e = Ok v -> Q v.
Proof.
  intros He H. assert (D : Q (EFun Fabs [e])) by (apply Q_call; [discriminate|auto]).
  assert (G : (match try_rational e with
      | Some q =>
          if (0 <=? num q)%Z then (if (0 <? den q)%Z then Ok e else Throws)
          else let* m := ck_neg (num q) in let* q' := rat_make m (den q) in of_rat q'
      | None =>
          let* c := complex_cast I false e in
          match c with
          | Some z => Ok (of_float (fst (i_cfun I Fabs z)))
          | None =>
              match e with
              | ESym c =>
                  let* o := compare_int_float 0 (symc_f64 c) in
                  match o with
                  | None => Throws
                  | Some Gt => Ok (EFun Fabs [e])
                  | Some _ => Ok e
                  end
              | _ => if is_inf e || is_undefined e then Ok EUndef else Ok (EFun Fabs [e])
              end
          end
      end) = Ok v -> Q v).
  { clear H. intros H. destruct (try_rational e) as [q|].
    - destruct (0 <=? num q)%Z; [destruct (0 <? den q)%Z; [injection H as <-; auto|discriminate]|]. binv H. binv H. eapply Q_of_rat; eauto.
    - binv H. destruct x as [z|]; [injection H as <-; apply Q_of_float|].
      assert (G : (if is_inf e || is_undefined e then Ok EUndef else Ok (EFun Fabs [e])) = Ok v -> Q v).
      { destruct (_ || _); intros G; injection G as <-; auto. }
      destruct e; try exact (G H). binv H. destruct x as [[| |]|]; try discriminate; injection H as <-; auto. }
  unfold abs_fn in H. destruct e; try exact (G H). destruct f; try exact (G H). injection H as <-. exact He.
Qed.
Lemma Q_signum e v : Q e -> signum_fn e = Ok v -> Q v.
Proof.
  intros He H. assert (D : Q (EFun Fsign [e])) by (apply Q_call; [discriminate|auto]). unfold signum_fn in H.
  destruct e; try (injection H as <-; auto; fail); [destruct (is_nan f)|destruct f]; injection H as <-; auto.
Qed.
Lemma Q_floor e v : Q e -> floor_fn e = Ok v -> Q v.
Proof.
  intros He H. assert (D : Q (EFun Ffloor [e])) by (apply Q_call; [discriminate|auto]). unfold floor_fn in H.
  destruct e; try (injection H as <-; auto; fail).
  - destruct (is_nan f); [injection H as <-; auto|]. binv H. injection H as <-. auto.
  - binv H. destruct x as [ip q]. destruct (num r <? 0)%Z; [binv H|]; injection H as <-; auto.
  - binv H. injection H as <-. auto.
  - destruct f; injection H as <-; auto.
Qed.

(** Function calls: the argument of a logarithm that remains must satisfy the condition of logarithms. *)
Lemma Q_create_fn f l v : Forall Q l -> (f = Flog -> forall a, hd_error l = Some a -> Q (EFun Flog [a])) -> create_fn I n f l = Ok v -> Q v.
Proof.
  intros Hl Hg H. destruct l as [|e l]; [destruct f; discriminate|]. pose proof (Forall_inv Hl) as He.
  destruct f; cbn [create_fn] in H; try (eapply Q_trig; [|exact He|exact H]; discriminate).
  - unfold acos_fn in H. destruct (is_zero e); [eapply Q_pi_over; eauto|]. destruct (is_one e); [injection H as <-; auto|].
    destruct (is_negative_one e); [injection H as <-; auto|]. eapply Q_finish_inverse; [|exact He|exact H]; discriminate.
  - eapply Q_odd_inverse; [|exact He|exact H]; discriminate.
  - eapply Q_odd_inverse; [|exact He|exact H]; discriminate.
  - unfold acosh_fn in H. destruct (is_zero e); [|eapply Q_finish; [| |exact He|exact H]; discriminate]. binv H.
    eapply Q_e_div; [| |exact H]; auto. eapply Q_e_mul2; [| |exact E]; auto.
  - unfold asinh_fn in H. destruct (is_zero e); [injection H as <-; auto|]. eapply Q_finish; [| |exact He|exact H]; discriminate.
  - unfold atanh_fn in H. destruct (is_zero e); [injection H as <-; auto|]. eapply Q_finish; [| |exact He|exact H]; discriminate.
  - unfold log_fn in H. destruct (ident e (ESym Euler)); [injection H as <-; auto|]. destruct (is_one e); [injection H as <-; auto|].
    destruct (is_zero e); [injection H as <-; auto|]. destruct (_ || _); [injection H as <-; auto|]. binv H.
    destruct x; injection H as <-; [eapply Q_op; eauto|]. apply Hg; reflexivity.
  - eapply Q_exp; [|exact He|exact H]. apply keeps_n.
  - eapply Q_abs; [exact He|exact H].
  - eapply Q_signum; [exact He|exact H].
  - eapply Q_floor; [exact He|exact H].
  - destruct l as [|x l]; [discriminate|]. eapply Q_atan2; [exact He| |exact H]. exact (Forall_inv (Forall_inv_tail Hl)).
Qed.
End Closed.
