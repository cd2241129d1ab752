(** Soundness of the simplifying constructors. *)
From Coq Require Import String List ZArith Reals Bool Permutation Lra Lia.
From Verif Require Import Outcome CheckedIntModel CheckedIntSpec CheckedIntProofs RationalModel RationalSpec RationalProofs
  IntUtilsModel IntFloatModel ExprModel ExprSpec ValProofs ExprProofs NumProofs BuildModel.
Import ListNotations.
Open Scope R_scope.

Lemma filter_perm {A} (p : A -> bool) l m : Permutation l m -> Permutation (filter p l) (filter p m).
Proof.
  induction 1; cbn; auto.
  - destruct (p x); auto.
  - destruct (p x), (p y); auto. apply perm_swap.
  - eapply perm_trans; eauto.
Qed.

Lemma sort_insert_perm I x l m : sort_insert I x l = Ok m -> Permutation (x :: l) m.
Proof.
  revert m; induction l as [|y l IH]; cbn; intros m H.
  - injection H as <-; auto.
  - binv H. destruct x0.
    + binv H. injection H as <-. apply IH in E0. eapply perm_trans; [apply perm_swap|]. now apply perm_skip.
    + injection H as <-. auto.
Qed.

Lemma sort_terms_perm I l m : sort_terms I l = Ok m -> Permutation l m.
Proof.
  revert m; induction l as [|x l IH]; cbn; intros m H.
  - injection H as <-; auto.
  - binv H. apply sort_insert_perm in H. apply IH in E. eapply perm_trans; [|exact H]. now apply perm_skip.
Qed.

Lemma make_mul_inv I l e : make_mul I l = Ok e -> exists m, e = EMul m /\ Permutation l m.
Proof. unfold make_mul. intros H. binv H. injection H as <-. apply sort_terms_perm in E. eauto. Qed.
Lemma make_add_inv I l e : make_add I l = Ok e -> exists m, e = EAdd m /\ Permutation l m.
Proof. unfold make_add. intros H. binv H. injection H as <-. apply sort_terms_perm in E. eauto. Qed.

Lemma wf_EMul_perm s l m : Permutation l m -> wf s (EMul l) -> wf s (EMul m).
Proof.
  intros HP H. apply wf_EMul in H. apply wf_EMul. destruct H as (H1 & H2 & H3 & H4).
  rewrite <- (Permutation_length HP). rewrite <- (Permutation_length (filter_perm is_num l m HP)).
  repeat split; auto; eapply Permutation_Forall; eauto.
Qed.

Lemma make_mul_spec I l e s : make_mul I l = Ok e -> wf s (EMul l) -> wf s e /\ eval s e = vprod (map (eval s) l).
Proof.
  intros H Hw. apply make_mul_inv in H. destruct H as (m & -> & HP). split.
  - eapply wf_EMul_perm; eauto.
  - cbn. apply vprod_perm. apply Permutation_map. now apply Permutation_sym.
Qed.
Lemma make_add_spec I l e s : make_add I l = Ok e -> Forall (wf s) l -> wf s e /\ eval s e = vsum (map (eval s) l).
Proof.
  intros H Hw. apply make_add_inv in H. destruct H as (m & -> & HP). split.
  - apply wf_EAdd. eapply Permutation_Forall; eauto.
  - cbn. apply vsum_perm. apply Permutation_map. now apply Permutation_sym.
Qed.

Lemma efold_inv {S A} (f : S -> A -> outcome S) l st st' : efold f l st = Ok st' ->
  match l with
  | [] => st' = st
  | a :: t => exists m, f st a = Ok m /\ efold f t m = Ok st'
  end.
Proof. destruct l; cbn; intros H; [congruence|]. binv H. eauto. Qed.

Lemma emap_inv {A B} (f : A -> outcome B) l m : emap f l = Ok m -> Forall2 (fun a b => f a = Ok b) l m.
Proof.
  revert m; induction l as [|a l IH]; cbn; intros m H.
  - injection H as <-; constructor.
  - binv H. binv H. injection H as <-. constructor; auto.
Qed.

Lemma wf_numbers s : wf s (EInt 0) /\ wf s (EInt 1) /\ wf s (EInt (-1)).
Proof. cbn. unfold_range. lia. Qed.

Lemma Forall_filter {A} (P : A -> Prop) p l : Forall P l -> Forall P (filter p l).
Proof. induction 1; cbn; auto. destruct (p x); auto. Qed.

Lemma filter_neg_none {A} (p : A -> bool) l : filter p (filter (fun x => negb (p x)) l) = [].
Proof. induction l; cbn; auto. destruct (p a) eqn:E; cbn; auto. now rewrite E. Qed.

Lemma filter_length_split {A} (p : A -> bool) l :
  (List.length (filter p l) + List.length (filter (fun x => negb (p x)) l) = List.length l)%nat.
Proof. induction l; cbn; auto. destruct (p a); cbn; lia. Qed.

Lemma maybe_new_mul_spec I l e s : maybe_new_mul I l = Ok e -> Forall (wf s) l ->
  Forall (fun x => is_zero x = false) l -> (List.length (filter is_num l) <= 1)%nat ->
  wf s e /\ eval s e = vprod (map (eval s) l).
Proof.
  intros H Hw Hz Hn. destruct l as [|a [|b l]].
  - injection H as <-. split; [apply (wf_numbers s)|reflexivity].
  - injection H as <-. inversion Hw; subst. split; auto. cbn [map]. now rewrite vprod_one.
  - eapply make_mul_spec; eauto. apply wf_EMul. repeat split; auto. cbn; lia.
Qed.

Lemma maybe_new_mul_eval I l e s : maybe_new_mul I l = Ok e -> eval s e = vprod (map (eval s) l).
Proof.
  intros H. destruct l as [|a [|b l]].
  - now injection H as <-.
  - injection H as <-. cbn [map]. now rewrite vprod_one.
  - apply make_mul_inv in H. destruct H as (m & -> & HP). cbn [eval]. apply vprod_perm. apply Permutation_map. now apply Permutation_sym.
Qed.

Lemma as_coeff_and_mul_spec I s0 e c m : as_coeff_and_mul I e = Ok (c, m) -> wf s0 e ->
  wf s0 c /\ wf s0 m /\ (forall s, eval s e = vmul (eval s c) (eval s m)) /\ is_num c = true /\
  (is_num e = false -> is_num m = false /\ is_zero c = false /\ is_zero m = false) /\ (is_num e = true -> c = e /\ m = EInt 1) /\
  (has_numeric_coefficient e = false -> is_num e = false -> c = EInt 1 /\ m = e) /\
  (is_mul e = false -> is_num e = false -> c = EInt 1 /\ m = e).
Proof.
  intros H Hw.
  assert (Hsplit : forall l, e = EMul l -> split_multiplication I l = Ok (c, m) ->
    wf s0 c /\ wf s0 m /\ (forall s, eval s e = vmul (eval s c) (eval s m)) /\ is_num c = true /\
    (is_num m = false /\ is_zero c = false /\ is_zero m = false) /\ (has_numeric_coefficient e = false -> c = EInt 1 /\ m = e)).
  { intros l -> Hs. unfold split_multiplication in Hs. pose proof Hw as Hw0. apply wf_EMul in Hw.
    destruct Hw as (H1 & H2 & H3 & H4). pose proof (filter_length_split is_num l) as HL.
    destruct (filter is_num l) as [|x [|]] eqn:Ef; [| |cbn in H2; lia].
    - injection Hs as <- <-. split; [apply (wf_numbers s0)|]. split; [exact Hw0|]. repeat split; auto.
      intros. cbn [eval]. now rewrite vmul_1_l.
    - binv Hs. binv Hs. injection Hs as <- <-. cbn in E. injection E as <-.
      assert (Hx : In x (filter is_num l)) by (rewrite Ef; now left).
      apply filter_In in Hx. destruct Hx as [Hx1 Hx2].
      destruct (filter (fun x => negb (is_num x)) l) as [|y t] eqn:Er; [cbn in HL; lia|].
      assert (Hy : In y (filter (fun x => negb (is_num x)) l)) by (rewrite Er; now left).
      apply filter_In in Hy. destruct Hy as [Hy1 Hy2].
      assert (HF := Forall_filter (wf s0) (fun x => negb (is_num x)) l H4).
      assert (HZ := Forall_filter (fun x => is_zero x = false) (fun x => negb (is_num x)) l H3).
      assert (HN := filter_neg_none is_num l). rewrite Er in *.
      assert (Hm : forall s, wf s0 x1 /\ eval s x1 = vprod (map (eval s) (y :: t))).
      { intros s. split; [eapply maybe_new_mul_spec; eauto; rewrite HN; cbn; lia|eapply maybe_new_mul_eval; eauto]. }
      assert (Hnm : is_num x1 = false /\ is_zero x1 = false).
      { destruct t; cbn in E0.
        - injection E0 as <-. apply negb_true_iff in Hy2. split; auto. inversion HZ; auto.
        - apply make_mul_inv in E0. destruct E0 as (? & -> & _). auto. }
      rewrite Forall_forall in H4, H3.
      split; [auto|]. split; [|repeat split; auto; try apply Hnm].
      + apply (Hm (mk_env (fun _ => 0) (fun _ _ => 0))).
      + intros s. destruct (Hm s) as [_ ->]. cbn [eval]. rewrite (vprod_filter (eval s) is_num), Ef, Er.
        cbn [map]. rewrite vprod_one. reflexivity.
      + cbn [has_numeric_coefficient] in H0. exfalso. assert (existsb is_num l = true) by (apply existsb_exists; eauto). congruence.
      + cbn [has_numeric_coefficient] in H0. exfalso. assert (existsb is_num l = true) by (apply existsb_exists; eauto). congruence. }
  destruct e; cbn in H;
    try (injection H as <- <-; (split; [first [apply (wf_numbers s0)|exact Hw]|]); (split; [first [exact Hw|apply (wf_numbers s0)]|]); repeat split; auto; try discriminate; try congruence;
         intros; cbn [eval]; rewrite ?vmul_1_l, ?vmul_1_r; auto; fail).
  destruct l as [|a [|b [|d l]]];
    try (destruct (Hsplit _ eq_refl H) as (A & B & C & D & E & F); split; [exact A|]; split; [exact B|]; repeat split; auto; try discriminate; try apply E; try (apply F; auto); fail).
  destruct (is_num a && negb (is_num b)) eqn:E1; [|destruct (negb (is_num a) && is_num b) eqn:E2].
  - injection H as <- <-. apply andb_prop in E1. destruct E1 as [E1 E2]. apply negb_true_iff in E2.
    apply wf_EMul in Hw. destruct Hw as (_ & _ & H3 & H4). pose proof (Forall_inv H4). pose proof (Forall_inv (Forall_inv_tail H4)).
    pose proof (Forall_inv H3). pose proof (Forall_inv (Forall_inv_tail H3)).
    (split; [auto|]); (split; [auto|]); repeat split; auto; try discriminate; try (cbn in *; rewrite E1 in *; discriminate).
    intros; cbn. now rewrite vmul_1_r.
  - injection H as <- <-. apply andb_prop in E2. destruct E2 as [E2 E3]. apply negb_true_iff in E2.
    apply wf_EMul in Hw. destruct Hw as (_ & _ & H3 & H4). pose proof (Forall_inv H4). pose proof (Forall_inv (Forall_inv_tail H4)).
    pose proof (Forall_inv H3). pose proof (Forall_inv (Forall_inv_tail H3)).
    (split; [auto|]); (split; [auto|]); repeat split; auto; try discriminate; try (cbn in *; rewrite E2, E3 in *; discriminate).
    intros; cbn. now rewrite vmul_1_r, vmul_comm.
  - destruct (Hsplit _ eq_refl H) as (A & B & C & D & E & F); split; [exact A|]; split; [exact B|]; repeat split; auto; try discriminate; try apply E; try (apply F; auto).
Qed.

Lemma vmul_vadd_refines a b c : refines (vmul (vadd a b) c) (vadd (vmul a c) (vmul b c)).
Proof.
  destruct a as [x| |], b as [y| |], c as [z| |]; cbn; auto; try (f_equal; ring); vdec; subst; cbn; auto; try congruence;
    try (f_equal; lra); vdec; cbn; auto; try congruence; exfalso; lra.
Qed.

Section Sound.
Variable I : impl.
Hypothesis HI : impl_ok I.
Variable s : env.
Hypothesis Henv : env_ok s.
Notation ev := (eval s).
Notation wf := (ExprSpec.wf s).

Definition sound (e : expr) (v : val) : Prop := wf e /\ refines (ev e) v.

Definition tsum (l : list (expr * expr)) : val := vsum (map (fun kv => vmul (ev (snd kv)) (ev (fst kv))) l).
Definition tprod (l : list (expr * expr)) : val := vprod (map (fun kv => vpow (ev (fst kv)) (ev (snd kv))) l).
Definition aval (p : parts) : val := vadd (cval (p_coeff p)) (tsum (p_terms p)).
Definition mval (p : parts) : val := vmul (cval (p_coeff p)) (tprod (p_terms p)).
Definition awf (p : parts) : Prop :=
  cwf (p_coeff p) /\
  Forall (fun kv => wf (fst kv) /\ wf (snd kv) /\ is_num (fst kv) = false /\ is_zero (fst kv) = false) (p_terms p).
Definition mwf (p : parts) : Prop :=
  cwf (p_coeff p) /\ Forall (fun kv => wf (fst kv) /\ wf (snd kv)) (p_terms p).

Record spec_ops (r : ops) : Prop := mk_spec_ops {
  s_add : forall l e, Forall wf l -> o_add r l = Ok e -> sound e (vsum (map ev l));
  s_mul2 : forall a b e, wf a -> wf b -> o_mul2 r a b = Ok e -> sound e (vmul (ev a) (ev b));
  s_mul : forall l e, Forall wf l -> o_mul r l = Ok e -> sound e (vprod (map ev l));
  s_pow : forall a b e, wf a -> wf b -> o_pow r a b = Ok e -> sound e (vpow (ev a) (ev b));
  s_simp : forall a b e, wf a -> wf b -> o_simp r a b = Ok (Some e) -> sound e (vpow (ev a) (ev b));
  s_visit : forall p e p', mwf p -> wf e -> o_visit r p e = Ok p' ->
    mwf p' /\ refines (mval p') (vmul (mval p) (ev e))
}.

Lemma spec_ops_0 : spec_ops ops_0.
Proof. constructor; discriminate. Qed.

(** ** The unordered maps *)
Lemma key_eq_eval a b : key_eq I a b = true -> ev a = ev b.
Proof. unfold key_eq. rewrite andb_true_iff. intros [_ H]. now apply ident_eval. Qed.

Lemma lookup_tsum k l old : lookup I k l = Some old ->
  tsum l = vadd (vmul (ev old) (ev k)) (tsum (erase I k l)) /\
  (forall v, tsum (update I k v l) = vadd (vmul (ev v) (ev k)) (tsum (erase I k l))).
Proof.
  unfold tsum. induction l as [|[a w] l IH]; cbn [lookup]; [discriminate|].
  cbn [erase update]. destruct (key_eq I a k) eqn:Ek.
  - intros E; injection E as ->. apply key_eq_eval in Ek. cbn [map fst snd]. rewrite vsum_cons. split; [congruence|].
    intros. cbn [map fst snd]. rewrite vsum_cons. congruence.
  - intros E. destruct (IH E) as [H1 H2]. cbn [map fst snd]. rewrite !vsum_cons. split.
    + rewrite H1. apply vadd_swap.
    + intros v. cbn [map fst snd]. rewrite vsum_cons, H2. apply vadd_swap.
Qed.

Lemma lookup_tprod k l old : lookup I k l = Some old ->
  tprod l = vmul (vpow (ev k) (ev old)) (tprod (erase I k l)) /\
  (forall v, tprod (update I k v l) = vmul (vpow (ev k) (ev v)) (tprod (erase I k l))).
Proof.
  unfold tprod. induction l as [|[a w] l IH]; cbn [lookup]; [discriminate|].
  cbn [erase update]. destruct (key_eq I a k) eqn:Ek.
  - intros E; injection E as ->. apply key_eq_eval in Ek. cbn [map fst snd]. rewrite vprod_cons. split; [congruence|].
    intros. cbn [map fst snd]. rewrite vprod_cons. congruence.
  - intros E. destruct (IH E) as [H1 H2]. cbn [map fst snd]. rewrite !vprod_cons. split.
    + rewrite H1. apply vmul_swap.
    + intros v. cbn [map fst snd]. rewrite vprod_cons, H2. apply vmul_swap.
Qed.

Lemma lookup_Forall (P : expr -> Prop) (Q : expr -> Prop) k l old :
  Forall (fun kv => Q (fst kv) /\ P (snd kv)) l -> lookup I k l = Some old -> P old.
Proof.
  induction l as [|[a w] l IH]; cbn; [discriminate|]. intros H. inversion H; subst.
  destruct (key_eq I a k); [intros E; injection E as <-; apply H2|auto].
Qed.
Lemma update_Forall (P : expr -> Prop) (Q : expr -> Prop) k v l :
  Forall (fun kv => Q (fst kv) /\ P (snd kv)) l -> P v -> Forall (fun kv => Q (fst kv) /\ P (snd kv)) (update I k v l).
Proof.
  induction l as [|[a w] l IH]; cbn; auto. intros H Hv. inversion H; subst.
  destruct (key_eq I a k); constructor; cbn in *; auto. tauto.
Qed.
Lemma erase_Forall (P : expr * expr -> Prop) k l : Forall P l -> Forall P (erase I k l).
Proof.
  induction l as [|[a w] l IH]; cbn; auto. intros H. inversion H; subst.
  destruct (key_eq I a k); auto.
Qed.

Lemma tsum_app l m : tsum (l ++ m) = vadd (tsum l) (tsum m).
Proof. unfold tsum. rewrite map_app. apply vsum_app. Qed.
Lemma tprod_app l m : tprod (l ++ m) = vmul (tprod l) (tprod m).
Proof. unfold tprod. rewrite map_app. apply vprod_app. Qed.
Lemma tsum_one k v : tsum [(k, v)] = vmul (ev v) (ev k).
Proof. unfold tsum. cbn [map fst snd]. apply vsum_one. Qed.
Lemma tprod_one k v : tprod [(k, v)] = vpow (ev k) (ev v).
Proof. unfold tprod. cbn [map fst snd]. apply vprod_one. Qed.

Section Step.
Variable r : ops.
Hypothesis Hr : spec_ops r.

(** ** Sums *)
Lemma add_term_leaf_spec p e p' : awf p -> wf e -> add_term_leaf I r p e = Ok p' ->
  awf p' /\ refines (aval p') (vadd (aval p) (ev e)).
Proof.
  intros [Hc Ht] Hw H. unfold add_term_leaf in H. destruct (coeff_of e) as [c|] eqn:Ec.
  - destruct (coeff_of_inv e c Hw Ec) as [Hcw Hcv]. binv H. injection H as <-.
    destruct (add_num_inv _ _ _ Hc Hcw E) as [H1 H2]. split; [split; auto|].
    unfold aval; cbn [p_coeff p_terms]. rewrite Hcv.
    rewrite <- vadd_assoc, (vadd_comm (tsum _)), vadd_assoc. now apply vadd_refines_l.
  - binv H. destruct x as [c m]. destruct (as_coeff_and_mul_spec I s e c m E Hw) as (Hwc & Hwm & Hev & Hn & Hm & _).
    assert (Hne : is_num e = false) by (destruct e; try discriminate Ec; auto).
    specialize (Hm Hne). destruct Hm as (Hm1 & Hm2 & Hm3).
    assert (HQ : Forall (fun kv => (wf (fst kv) /\ is_num (fst kv) = false /\ is_zero (fst kv) = false) /\ wf (snd kv)) (p_terms p)).
    { eapply Forall_impl; [|exact Ht]. cbn; tauto. }
    destruct (lookup I m (p_terms p)) as [old|] eqn:El.
    + binv H. injection H as <-.
      assert (Hwo : wf old) by exact (lookup_Forall wf (fun k => wf k /\ is_num k = false /\ is_zero k = false) _ _ _ HQ El).
      destruct (s_add r Hr [old; c] x) as [Hwx Hrx]; auto.
      destruct (lookup_tsum _ _ _ El) as [H1 H2]. split.
      * split; auto. cbn. eapply Forall_impl; [|exact (update_Forall wf (fun k => wf k /\ is_num k = false /\ is_zero k = false) _ _ _ HQ Hwx)]. cbn; tauto.
      * unfold aval; cbn [p_coeff p_terms]. rewrite H1, H2, Hev. cbn [map] in Hrx. rewrite vsum_two in Hrx.
        rewrite <- !vadd_assoc. apply vadd_mono; auto.
        rewrite (vadd_comm (tsum _)), vadd_assoc. apply vadd_refines_l.
        eapply refines_trans; [apply vmul_refines_l, Hrx|].
        apply vmul_vadd_refines.
    + injection H as <-. split.
      * split; auto. cbn. apply Forall_app. split; auto.
      * unfold aval; cbn [p_coeff p_terms]. rewrite tsum_app, tsum_one, Hev, vadd_assoc. auto.
Qed.

Lemma add_terms_spec e : forall p p', awf p -> wf e -> add_terms I r p e = Ok p' ->
  awf p' /\ refines (aval p') (vadd (aval p) (ev e)).
Proof.
  induction e using expr_ind'; intros p p' Hp Hw H0; try (apply add_term_leaf_spec; auto; fail).
  cbn [add_terms] in H0. apply wf_EAdd in Hw. cbn [eval].
  revert p p' Hp Hw H0. induction H as [|a l Ha HF IH]; intros p p' Hp Hw H0; apply efold_inv in H0.
  - subst. cbn. split; auto. rewrite vadd_0_r. auto.
  - destruct H0 as (m & E1 & E2). inversion Hw; subst.
    destruct (Ha _ _ Hp H1 E1) as [Hm1 Hm2]. destruct (IH _ _ Hm1 H2 E2) as [Hq1 Hq2].
    split; auto. cbn [map]. rewrite vsum_cons, vadd_assoc.
    eapply refines_trans; [exact Hq2|]. now apply vadd_refines_l.
Qed.

Lemma add_terms_list l : forall p p', awf p -> Forall wf l -> efold (add_terms I r) l p = Ok p' ->
  awf p' /\ refines (aval p') (vadd (aval p) (vsum (map ev l))).
Proof.
  induction l as [|a l IH]; intros p p' Hp Hw H; apply efold_inv in H.
  - subst. cbn. split; auto. rewrite vadd_0_r. auto.
  - destruct H as (m & E1 & E2). inversion Hw; subst.
    destruct (add_terms_spec _ _ _ Hp H1 E1) as [Hm1 Hm2]. destruct (IH _ _ Hm1 H2 E2) as [Hq1 Hq2].
    split; auto. cbn [map]. rewrite vsum_cons, vadd_assoc.
    eapply refines_trans; [exact Hq2|]. now apply vadd_refines_l.
Qed.

Lemma normalize_sum p : awf p -> awf (normalize p) /\ refines (aval (normalize p)) (aval p) /\
  Forall (fun kv => is_zero (snd kv) = false) (p_terms (normalize p)).
Proof.
  intros [Hc Ht]. unfold normalize, awf, aval; cbn [p_coeff p_terms]. split; [split; auto using Forall_filter|split].
  - apply vadd_mono; auto. clear Hc Ht. induction (p_terms p) as [|[m c] l IH]; [cbn; auto|].
    cbn [filter snd]. destruct (is_zero c) eqn:E; cbn [negb].
    + unfold tsum at 2. cbn [map fst snd]. rewrite vsum_cons. fold (tsum l).
      destruct c; try discriminate E. apply Z.eqb_eq in E. subst. cbn [eval].
      rewrite <- (vadd_0_l (tsum (filter _ _))). apply vadd_mono; [apply vmul_0_refines|exact IH].
    + unfold tsum in *. cbn [map fst snd]. rewrite !vsum_cons. apply vadd_mono; auto.
  - apply Forall_forall. intros x Hx. apply filter_In in Hx. destruct Hx as [_ Hx]. now apply negb_true_iff in Hx.
Qed.

Lemma add_create_term_spec m c e : wf m -> wf c -> is_num m = false -> is_zero m = false -> is_zero c = false ->
  add_create_term I r (m, c) = Ok e -> sound e (vmul (ev c) (ev m)).
Proof.
  intros Hm Hc Hn Hz Hzc H. cbn in H. destruct (is_one c) eqn:E1.
  - injection H as <-. destruct c; try discriminate E1. apply Z.eqb_eq in E1. subst. split; auto.
    cbn [eval]. rewrite vmul_1_l. auto.
  - destruct (negb (is_mul m) && negb (is_mul c)).
    + apply make_mul_spec with (s := s) in H.
      * destruct H as [H1 H2]. split; auto. rewrite H2. cbn [map]. rewrite vprod_two. auto.
      * apply wf_EMul. repeat split; auto. cbn [filter]. rewrite Hn. destruct (is_num c); cbn; lia.
    + rewrite vmul_comm. apply (s_mul2 r Hr); auto.
Qed.

Lemma emap_sound {A} (f : A -> outcome expr) (v : A -> val) l m :
  (forall a e, In a l -> f a = Ok e -> sound e (v a)) -> emap f l = Ok m ->
  Forall wf m /\ Forall2 refines (map ev m) (map v l).
Proof.
  intros Hf H. apply emap_inv in H. revert Hf. induction H; cbn; intros Hf; [split; constructor|].
  destruct IHForall2 as [H1 H2]; [intros; apply Hf; auto|].
  destruct (Hf x y (or_introl eq_refl) H) as [H3 H4]. split; constructor; auto.
Qed.

Lemma tsum_perm l m : Permutation l m -> tsum l = tsum m.
Proof. intros H. unfold tsum. apply vsum_perm. now apply Permutation_map. Qed.
Lemma tprod_perm l m : Permutation l m -> tprod l = tprod m.
Proof. intros H. unfold tprod. apply vprod_perm. now apply Permutation_map. Qed.

Lemma create_addition_spec p e : awf p -> Forall (fun kv => is_zero (snd kv) = false) (p_terms p) ->
  create_addition I r p = Ok e -> sound e (aval p).
Proof.
  intros [Hc Ht] Hz H. unfold create_addition in H. binv H.
  destruct (expr_of_inv _ _ Hc E) as (Hwx & Hvx & _ & Hu & Hzx & _).
  destruct (is_undefined x) eqn:Eu.
  - injection H as <-. split; [exact Logic.I|]. unfold aval. rewrite Hu by auto. cbn; auto.
  - binv H. pose proof (proj1 HI (p_terms p)) as HP.
    assert (HX : Forall wf x0 /\ Forall2 refines (map ev x0) (map (fun kv => vmul (ev (snd kv)) (ev (fst kv))) (i_iter I (p_terms p)))).
    { eapply emap_sound; [|exact E0]. intros [m c] e' Hin He.
      apply (Permutation_in _ HP) in Hin. rewrite Forall_forall in Ht, Hz.
      specialize (Ht _ Hin). specialize (Hz _ Hin). cbn in Ht, Hz. apply add_create_term_spec; tauto. }
    destruct HX as [Hw0 Hr0]. apply vsum_mono in Hr0. fold (tsum (i_iter I (p_terms p))) in Hr0.
    rewrite (tsum_perm _ _ HP) in Hr0.
    set (args := (if is_zero x then [] else [x]) ++ x0) in *.
    assert (Hargs : Forall wf args /\ refines (vsum (map ev args)) (aval p)).
    { unfold args, aval. destruct (is_zero x) eqn:Ez.
      - split; auto. cbn [app]. rewrite Hzx by auto. rewrite vadd_0_l. auto.
      - cbn [app map]. split; [constructor; auto|]. rewrite vsum_cons, Hvx. now apply vadd_mono. }
    destruct Hargs as [Ha1 Ha2]. clearbody args. destruct args as [|a [|b args]].
    + injection H as <-. split; [apply (wf_numbers s)|]. exact Ha2.
    + injection H as <-. inversion Ha1; subst. split; auto. cbn [map] in Ha2. now rewrite vsum_one in Ha2.
    + apply make_add_spec with (s := s) in H; auto. destruct H as [H1 H2]. split; auto. now rewrite H2.
Qed.

Lemma awf_0 : awf (mk_parts (CInt 0) []).
Proof. split; cbn; auto. unfold_range; lia. Qed.

Lemma add_parts_spec l e : Forall wf l -> add_parts I r l = Ok e -> sound e (vsum (map ev l)).
Proof.
  intros Hw H. unfold add_parts in H. binv H.
  destruct (add_terms_list _ _ _ awf_0 Hw E) as [H1 H2].
  destruct (normalize_sum _ H1) as (H3 & H4 & H5).
  destruct (create_addition_spec _ _ H3 H5 H) as [H6 H7]. split; auto.
  eapply refines_trans; [exact H7|]. eapply refines_trans; [exact H4|].
  unfold aval at 2, tsum in H2. cbn [p_coeff p_terms map] in H2. cbn [vsum fold_right cval] in H2.
  rewrite vadd_0_l, vadd_0_l in H2. exact H2.
Qed.

Lemma add_body_spec l e : Forall wf l -> add_body I r l = Ok e -> sound e (vsum (map ev l)).
Proof.
  intros Hw H. unfold add_body in H. destruct l as [|a [|b [|d l]]]; [discriminate| | |apply add_parts_spec; auto].
  - injection H as <-. inversion Hw; subst. split; auto. cbn [map]. rewrite vsum_one. auto.
  - destruct (add_apply a b) as [[x y]|] eqn:Ea; [|apply add_parts_spec; auto].
    inversion Hw; subst. inversion H3; subst. binv H. cbn [map]. rewrite vsum_two.
    assert (HX : cwf x /\ cwf y /\ refines (vadd (cval x) (cval y)) (vadd (ev a) (ev b))).
    { unfold add_apply in Ea.
      destruct (coeff_of a) as [ca|] eqn:E1, (coeff_of b) as [cb|] eqn:E2.
      - destruct (coeff_of_inv _ _ H2 E1) as [A1 A2]. destruct (coeff_of_inv _ _ H4 E2) as [B1 B2].
        assert (x = ca /\ y = cb) as [-> ->] by (destruct ca, cb; injection Ea; auto). rewrite A2, B2. auto.
      - destruct (coeff_of_inv _ _ H2 E1) as [A1 A2]. destruct ca; try discriminate; injection Ea as <- <-;
          rewrite A2; cbn; repeat split; auto; unfold_range; lia.
      - destruct (coeff_of_inv _ _ H4 E2) as [A1 A2]. destruct cb; try discriminate; injection Ea as <- <-;
          rewrite A2; cbn [cwf cval]; rewrite ?vadd_top_r; repeat split; auto; unfold_range; lia.
      - discriminate. }
    destruct HX as (X1 & X2 & X3). destruct (add_num_inv _ _ _ X1 X2 E) as [X4 X5].
    destruct (expr_of_inv _ _ X4 H) as (X6 & X7 & _). split; auto. rewrite X7.
    eapply refines_trans; eauto.
Qed.

(** ** Products *)
Lemma update_wf k v l : Forall (fun kv => wf (fst kv) /\ wf (snd kv)) l -> wf v ->
  Forall (fun kv => wf (fst kv) /\ wf (snd kv)) (update I k v l).
Proof. apply (update_Forall wf wf). Qed.

Lemma insert_power_spec p b x p' : mwf p -> wf b -> wf x -> insert_power I r p b x = Ok p' ->
  mwf p' /\ refines (mval p') (vmul (mval p) (vpow (ev b) (ev x))).
Proof.
  intros [Hc Ht] Hb Hx H. unfold insert_power in H.
  destruct (lookup I b (p_terms p)) as [old|] eqn:El.
  - assert (Hold : wf old) by (eapply (lookup_Forall wf wf); eauto).
    destruct (lookup_tprod _ _ _ El) as [L1 L2].
    binv H. destruct (s_add r Hr [old; x] x0) as [U1 U2]; auto. cbn [map] in U2. rewrite vsum_two in U2.
    assert (HP : refines (vpow (ev b) (ev x0)) (vmul (vpow (ev b) (ev old)) (vpow (ev b) (ev x)))).
    { eapply refines_trans; [apply vpow_mono; [apply refines_refl|exact U2]|]. apply vpow_add. }
    assert (HV : forall v, refines v (vpow (ev b) (ev x0)) ->
       refines (vmul (vmul (cval (p_coeff p)) (tprod (erase I b (p_terms p)))) v) (vmul (mval p) (vpow (ev b) (ev x)))).
    { intros v Hv. unfold mval. rewrite L1. rewrite <- !vmul_assoc. apply vmul_refines_r.
      rewrite (vmul_comm (tprod _) (vpow _ _)), vmul_assoc, (vmul_comm (tprod _) v). apply vmul_refines_l.
      eapply refines_trans; [exact Hv|]. exact HP. }
    assert (Hupd : mwf (mk_parts (p_coeff p) (update I b x0 (p_terms p))) /\
      refines (mval (mk_parts (p_coeff p) (update I b x0 (p_terms p)))) (vmul (mval p) (vpow (ev b) (ev x)))).
    { split; [split; auto; apply update_wf; auto|].
      unfold mval at 1. cbn [p_coeff p_terms]. rewrite L2, (vmul_comm (vpow _ _)), vmul_assoc.
      apply HV. auto. }
    binv H. destruct x1 as [e|]; [|injection H as <-; exact Hupd].
    destruct (is_mul b || is_pow b); [|discriminate E0].
    destruct (is_mul e || is_pow e); [|injection H as <-; exact Hupd].
    destruct (s_simp r Hr _ _ _ Hb U1 E0) as [V1 V2].
    apply (s_visit r Hr) in H; auto; [|split; auto; apply erase_Forall; auto].
    destruct H as [W1 W2]. split; auto. eapply refines_trans; [exact W2|].
    apply HV. exact V2.
  - injection H as <-. split; [split; auto; cbn; apply Forall_app; split; auto|].
    unfold mval; cbn [p_coeff p_terms]. rewrite tprod_app, tprod_one, vmul_assoc. auto.
Qed.

Lemma vpow_euler v : refines (vpow (Rv (exp 1)) v) (vfun Fexp [v]) /\ refines (vfun Fexp [v]) (vpow (Rv (exp 1)) v).
Proof.
  destruct v as [x| |]; [|cbn; auto..]. rewrite vpow_pos by apply exp_pos. cbn.
  assert (Rpower (exp 1) x = exp x) by (unfold Rpower; rewrite ln_exp; f_equal; ring). split; congruence.
Qed.

Lemma mul_visit_spec e : forall p p', mwf p -> wf e -> mul_visit I r p e = Ok p' ->
  mwf p' /\ refines (mval p') (vmul (mval p) (ev e)).
Proof.
  assert (Hone : forall e p p', mwf p -> wf e -> insert_power I r p e (EInt 1) = Ok p' ->
    mwf p' /\ refines (mval p') (vmul (mval p) (ev e))).
  { intros. apply insert_power_spec in H1; auto using (proj1 (proj2 (wf_numbers s))).
    cbn [eval] in H1. now rewrite vpow_1_r in H1. }
  assert (Hleaf : forall e p p', mwf p -> wf e ->
    match coeff_of e with
      | Some c => let* c' := mul_num (p_coeff p) c in Ok (mk_parts c' (p_terms p))
      | None => insert_power I r p e (EInt 1)
    end%outcome = Ok p' -> mwf p' /\ refines (mval p') (vmul (mval p) (ev e))).
  { intros e0 p p' Hp Hw H. destruct (coeff_of e0) as [c|] eqn:E; [|auto]. binv H. injection H as <-.
    destruct (coeff_of_inv _ _ Hw E) as [C1 C2]. destruct Hp as [P1 P2].
    destruct (mul_num_inv _ _ _ P1 C1 E0) as [M1 M2]. split; [split; auto|].
    unfold mval; cbn [p_coeff p_terms]. rewrite C2, <- vmul_assoc, (vmul_comm (tprod _)), vmul_assoc.
    now apply vmul_refines_l. }
  induction e using expr_ind'; intros p p' Hp Hw H0; try (apply Hleaf; auto; fail).
  - cbn [mul_visit] in H0. apply wf_EMul in Hw. destruct Hw as (_ & _ & _ & Hw). cbn [eval].
    revert p p' Hp Hw H0. induction H as [|a l Ha HF IH]; intros p p' Hp Hw H0; apply efold_inv in H0.
    + subst. cbn. split; auto. rewrite vmul_1_r. auto.
    + destruct H0 as (m & E1 & E2). inversion Hw; subst.
      destruct (Ha _ _ Hp H1 E1) as [Hm1 Hm2]. destruct (IH _ _ Hm1 H2 E2) as [Hq1 Hq2].
      split; auto. cbn [map]. rewrite vprod_cons, vmul_assoc.
      eapply refines_trans; [exact Hq2|]. now apply vmul_refines_l.
  - cbn [mul_visit] in H0. destruct Hw. apply insert_power_spec in H0; auto.
  - destruct f; try (apply Hleaf; auto; fail). destruct l as [|x l]; [apply Hleaf; auto|].
    cbn [mul_visit] in H0. destruct Hw as [[Hwx _] _].
    apply insert_power_spec in H0; auto; [|exact Logic.I]. destruct H0 as [H1 H2]. split; auto.
    eapply refines_trans; [exact H2|]. apply vmul_refines_r. cbn [eval map].
    destruct l; [apply vpow_euler|]. destruct (ev x); cbn; auto.
Qed.

Lemma mul_visit_list l : forall p p', mwf p -> Forall wf l -> efold (mul_visit I r) l p = Ok p' ->
  mwf p' /\ refines (mval p') (vmul (mval p) (vprod (map ev l))).
Proof.
  induction l as [|a l IH]; intros p p' Hp Hw H; apply efold_inv in H.
  - subst. cbn. split; auto. rewrite vmul_1_r. auto.
  - destruct H as (m & E1 & E2). inversion Hw; subst.
    destruct (mul_visit_spec _ _ _ Hp H1 E1) as [Hm1 Hm2]. destruct (IH _ _ Hm1 H2 E2) as [Hq1 Hq2].
    split; auto. cbn [map]. rewrite vprod_cons, vmul_assoc.
    eapply refines_trans; [exact Hq2|]. now apply vmul_refines_l.
Qed.

Lemma normalize_prod p : mwf p -> mwf (normalize p) /\ refines (mval (normalize p)) (mval p).
Proof.
  intros [Hc Ht]. unfold normalize, mwf, mval; cbn [p_coeff p_terms]. split; [split; auto using Forall_filter|].
  apply vmul_refines_r. clear Hc Ht. induction (p_terms p) as [|[m c] l IH]; [cbn; auto|].
  cbn [filter snd]. destruct (is_zero c) eqn:E; cbn [negb].
  - unfold tprod at 2. cbn [map fst snd]. rewrite vprod_cons. fold (tprod l).
    destruct c; try discriminate E. apply Z.eqb_eq in E. subst. cbn [eval].
    rewrite <- (vmul_1_l (tprod (filter _ _))). apply vmul_mono; [apply vpow_0_r|exact IH].
  - unfold tprod in *. cbn [map fst snd]. rewrite !vprod_cons. apply vmul_mono; auto.
Qed.

Definition args_ok (l : list expr) : Prop := Forall (fun x => wf x /\ is_num x = false) l.

Lemma is_one_val e : is_one e = true -> ev e = Rv 1.
Proof. destruct e; try discriminate. cbn. intros H. apply Z.eqb_eq in H. now subst. Qed.

Lemma create_mul_step_spec args c kv args' c' : args_ok args -> cwf c -> wf (fst kv) -> wf (snd kv) ->
  create_mul_step I r (args, c) kv = Ok (args', c') ->
  args_ok args' /\ cwf c' /\
  refines (vmul (cval c') (vprod (map ev args')))
          (vmul (vmul (cval c) (vprod (map ev args))) (vpow (ev (fst kv)) (ev (snd kv)))).
Proof.
  intros Ha Hc Hk Hv H. unfold create_mul_step in H. binv H.
  destruct (s_pow r Hr _ _ _ Hk Hv E) as [P1 P2].
  destruct (has_numeric_coefficient x) eqn:En.
  - binv H. destruct x0 as [pc m]. binv H. injection H as <- <-.
    destruct (as_coeff_and_mul_spec I s x pc m E0 P1) as (A1 & A2 & A3 & A4 & A5 & A6 & _).
    rewrite A4 in E1. destruct (coeff_of pc) as [k|] eqn:Ek; [|destruct pc; discriminate].
    destruct (coeff_of_inv _ _ A1 Ek) as [K1 K2]. destruct (mul_num_inv _ _ _ Hc K1 E1) as [M1 M2].
    assert (HG : refines (vmul (cval x0) (vmul (ev m) (vprod (map ev args)))) (vmul (vmul (cval c) (vprod (map ev args))) (vpow (ev (fst kv)) (ev (snd kv))))).
    { eapply refines_trans; [|apply vmul_refines_r, P2]. rewrite A3, K2.
      rewrite <- vmul_assoc. rewrite (vmul_swap (vprod _)), (vmul_comm (vprod _) (ev m)), (vmul_assoc (cval c) (cval k)).
      now apply vmul_refines_l. }
    destruct (is_one m) eqn:Em.
    + split; auto. split; auto. rewrite (is_one_val _ Em), vmul_1_l in HG. exact HG.
    + split; [|split; auto].
      * apply Forall_app. split; auto. constructor; auto. split; auto.
        destruct (is_num x) eqn:Ex; [|apply A5; auto]. destruct (A6 eq_refl) as [_ ->]. discriminate Em.
      * rewrite map_app, vprod_app. cbn [map]. rewrite vprod_one, (vmul_comm (vprod _)). exact HG.
  - injection H as <- <-. split; [|split; auto].
    + apply Forall_app. split; auto. constructor; auto. split; auto. destruct x; auto.
    + rewrite map_app, vprod_app. cbn [map]. rewrite vprod_one, vmul_assoc. now apply vmul_refines_r.
Qed.

Lemma create_mul_loop_spec l : forall args c args' c', args_ok args -> cwf c ->
  Forall (fun kv => wf (fst kv) /\ wf (snd kv)) l ->
  efold (create_mul_step I r) l (args, c) = Ok (args', c') ->
  args_ok args' /\ cwf c' /\
  refines (vmul (cval c') (vprod (map ev args'))) (vmul (vmul (cval c) (vprod (map ev args))) (tprod l)).
Proof.
  induction l as [|kv l IH]; intros args c args' c' Ha Hc Hl H; apply efold_inv in H.
  - injection H as -> ->. cbn. rewrite vmul_1_r. auto.
  - destruct H as ([a1 c1] & E1 & E2). inversion Hl; subst.
    destruct (create_mul_step_spec _ _ _ _ _ Ha Hc (proj1 H1) (proj2 H1) E1) as (S1 & S2 & S3).
    destruct (IH _ _ _ _ S1 S2 H2 E2) as (T1 & T2 & T3). split; auto. split; auto.
    eapply refines_trans; [exact T3|]. unfold tprod at 2. cbn [map]. rewrite vprod_cons, vmul_assoc.
    now apply vmul_refines_l.
Qed.

Lemma coeff_val c : coeff_of c <> None -> ev c = Top \/ exists x, ev c = Rv x.
Proof. destruct c; cbn; intros; try congruence; eauto. Qed.

Lemma multiply_into_addition_spec l c e : Forall wf l -> wf c -> coeff_of c <> None ->
  multiply_into_addition r l c = Ok e -> sound e (vmul (vsum (map ev l)) (ev c)).
Proof.
  intros Hl Hc Hn H. unfold multiply_into_addition in H. binv H.
  assert (HX : Forall wf x /\ Forall2 refines (map ev x) (map (fun f => vmul (ev f) (ev c)) l)).
  { eapply emap_sound; [|exact E]. intros a e' Hin He. rewrite Forall_forall in Hl. apply (s_mul2 r Hr); auto. }
  destruct HX as [X1 X2]. destruct (s_add r Hr _ _ X1 H) as [Y1 Y2]. split; auto.
  eapply refines_trans; [exact Y2|]. apply vsum_mono in X2. eapply refines_trans; [exact X2|].
  destruct (coeff_val c Hn) as [E1|[y E1]]; rewrite E1.
  - rewrite (vmul_top_r (vsum (map ev l))). auto.
  - rewrite <- vsum_map_mul, map_map. auto.
Qed.

Lemma create_multiplication_spec p e : mwf p -> create_multiplication I r p = Ok e -> sound e (mval p).
Proof.
  intros [Hc Ht] H. unfold create_multiplication in H. binv H. destruct x as [args cc]. binv H.
  pose proof (proj1 HI (p_terms p)) as HP.
  apply create_mul_loop_spec in E; auto; [|constructor|eapply Permutation_Forall; [apply Permutation_sym, HP|exact Ht]].
  destruct E as (L1 & L2 & L3). cbn [map vprod fold_right] in L3. rewrite vmul_1_r, (tprod_perm _ _ HP) in L3.
  fold (mval p) in L3. destruct (expr_of_inv _ _ L2 E0) as (X1 & X2 & X3 & X4 & X5 & X6).
  destruct (is_zero x) eqn:Ez; [|destruct (is_undefined x) eqn:Eu].
  - injection H as <-. split; auto. rewrite X2, X5 in * by auto.
    eapply refines_trans; [apply vmul_0_refines|exact L3].
  - injection H as <-. split; auto. rewrite X2, X4 in * by auto. cbn in L3. apply refines_Top_l in L3. rewrite L3. auto.
  - assert (Hgen : maybe_new_mul I (if is_one x then args else args ++ [x]) = Ok e -> sound e (mval p)).
    { intros Hm. destruct (is_one x) eqn:Eo.
      - destruct (maybe_new_mul_spec I _ _ s Hm) as [M1 M2].
        + eapply Forall_impl; [|exact L1]. cbn; tauto.
        + eapply Forall_impl; [|exact L1]. cbn; intros a [_ Hn]. destruct a; auto; discriminate.
        + replace (filter is_num args) with (@nil expr); [cbn; lia|]. symmetry. clear -L1. induction L1; auto.
          cbn. destruct H as [_ ->]. auto.
        + split; auto. rewrite M2. rewrite X6, vmul_1_l in L3 by auto. exact L3.
      - destruct (maybe_new_mul_spec I _ _ s Hm) as [M1 M2].
        + apply Forall_app; split; auto. eapply Forall_impl; [|exact L1]. cbn; tauto.
        + apply Forall_app; split; auto. eapply Forall_impl; [|exact L1]. cbn; intros a [_ Hn]. destruct a; auto; discriminate.
        + rewrite filter_app. replace (filter is_num args) with (@nil expr); [cbn; destruct (is_num x); cbn; lia|].
          symmetry. clear -L1. induction L1; auto. cbn. destruct H as [_ ->]. auto.
        + split; auto. rewrite M2, map_app, vprod_app. cbn [map]. rewrite vprod_one, X2, vmul_comm. exact L3. }
    cbn [orb] in H.
    destruct args as [|a [|b args]]; [apply Hgen; exact H| |apply Hgen; destruct a; exact H].
    destruct a; try (apply Hgen; exact H). inversion L1; subst. destruct H2 as [Hwa _]. apply wf_EAdd in Hwa.
    cbn [map] in L3. rewrite vprod_one in L3.
    destruct (is_one x) eqn:Eo.
    + injection H as <-. split; [apply wf_EAdd; auto|]. rewrite X6, vmul_1_l in L3 by auto. exact L3.
    + apply multiply_into_addition_spec in H; auto. destruct H as [Y1 Y2]. split; auto.
      eapply refines_trans; [exact Y2|]. rewrite X2, vmul_comm. exact L3.
Qed.

Lemma mul_parts_spec l e : Forall wf l -> mul_parts I r l = Ok e -> sound e (vprod (map ev l)).
Proof.
  intros Hw H. unfold mul_parts in H. binv H.
  assert (Hp : mwf (mk_parts (CInt 1) [])) by (split; cbn; auto; unfold_range; lia).
  destruct (mul_visit_list _ _ _ Hp Hw E) as [H1 H2].
  destruct (normalize_prod _ H1) as (H3 & H4).
  destruct (create_multiplication_spec _ _ H3 H) as [H6 H7]. split; auto.
  eapply refines_trans; [exact H7|]. eapply refines_trans; [exact H4|].
  unfold mval at 2, tprod in H2. cbn [p_coeff p_terms map] in H2. cbn [vprod fold_right cval] in H2.
  rewrite vmul_1_l, vmul_1_l in H2. exact H2.
Qed.

Lemma num_coeff c : is_num c = true -> coeff_of c <> None.
Proof. destruct c; cbn; congruence. Qed.

Lemma mul2_body_spec a b e : wf a -> wf b -> mul2_body I r a b = Ok e -> sound e (vmul (ev a) (ev b)).
Proof.
  intros Ha Hb H.
  assert (HP : mul_parts I r [a; b] = Ok e -> sound e (vmul (ev a) (ev b))).
  { intros HX. apply mul_parts_spec in HX; auto. cbn [map] in HX. now rewrite vprod_two in HX. }
  destruct (is_add a) eqn:Ea.
  - destruct a; try discriminate. cbn in H. destruct (is_num b) eqn:Eb; [|auto].
    apply wf_EAdd in Ha. apply multiply_into_addition_spec in H; auto using num_coeff.
  - destruct (is_add b) eqn:Eb.
    + destruct b; try discriminate. assert (H' : (if is_num a then multiply_into_addition r l a else mul_parts I r [a; EAdd l]) = Ok e)
        by (destruct a; try discriminate; exact H).
      destruct (is_num a) eqn:En; [|auto]. rewrite vmul_comm.
      apply wf_EAdd in Hb. apply multiply_into_addition_spec in H'; auto using num_coeff.
    + apply HP. destruct a, b; try discriminate; exact H.
Qed.

Lemma mul_body_spec l e : Forall wf l -> mul_body I r l = Ok e -> sound e (vprod (map ev l)).
Proof.
  intros Hw H. unfold mul_body in H. destruct l as [|a [|b [|d l]]]; [discriminate| | |apply mul_parts_spec; auto].
  - injection H as <-. inversion Hw; subst. split; auto. cbn [map]. rewrite vprod_one. auto.
  - inversion Hw; subst. inversion H3; subst. cbn [map]. rewrite vprod_two. apply (s_mul2 r Hr); auto.
Qed.

End Step.
End Sound.
