From Coq Require Import String List ZArith Reals Bool Permutation Lia Lra Sorted.
From Verif Require Import Outcome CheckedIntModel RationalModel RationalSpec RationalProofs IntFloatModel ExprModel ExprSpec NumProofs
  BuildModel BuildProofs FuelProofs OrderSpec OrderProofs SumSpec.
Import ListNotations.
Open Scope R_scope.
Open Scope outcome_scope.

Lemma all_of_Forall (P : expr -> Prop) l : all_of P l <-> Forall P l.
Proof.
  induction l as [|a l IH]; cbn; split; auto.
  - intros [H1 H2]. constructor; tauto.
  - intros H. split; [exact (Forall_inv H)|apply IH; exact (Forall_inv_tail H)].
Qed.

Lemma exact_plain e : exact e -> plain e.
Proof.
  assert (L : forall l, Forall (fun e => exact e -> plain e) l -> all_of exact l -> all_of plain l).
  { induction 1; cbn; tauto. }
  induction e as [e IH] using expr_ind2. destruct e; cbn; try tauto; try (apply L; auto; fail).
  intros [_ H]. apply L; auto.
Qed.

(** ** Identical exact expressions are equal *)
Lemma fn_name_inj f g : fn_name f = fn_name g -> f = g.
Proof. destruct f, g; cbn; congruence. Qed.
Lemma set_rank_inj a b : set_rank a = set_rank b -> a = b.
Proof. destruct a, b; cbn; congruence. Qed.
Lemma var_ident_eq v w : var_ident v w = true -> v = w.
Proof.
  destruct v, w; cbn; try discriminate; unfold set_eqb; rewrite ?andb_true_iff; intros H;
    repeat match goal with H : _ /\ _ |- _ => destruct H end;
    repeat match goal with
    | H : String.eqb _ _ = true |- _ => apply String.eqb_eq in H
    | H : (_ =? _)%Z = true |- _ => apply Z.eqb_eq in H
    end; subst; f_equal; auto using set_rank_inj.
  destruct type, type0; cbn in *; congruence.
Qed.
Lemma ident_eq : forall a b, exact a -> exact b -> ident a b = true -> a = b.
Proof.
  assert (L : forall l, Forall (fun a => forall b, exact a -> exact b -> ident a b = true -> a = b) l ->
    forall m, all_of exact l -> all_of exact m -> all2 ident l m = true -> l = m).
  { induction 1 as [|a l H _ IH]; intros [|b m] Hl Hm E; cbn in E; try discriminate; auto.
    apply andb_prop in E as [E1 E2]. destruct Hl, Hm. f_equal; auto. }
  induction a as [a IH] using expr_ind2. intros b Ha Hb E.
  destruct a, b; cbn [ident] in E; try discriminate; rewrite ?andb_true_iff in E;
    repeat match goal with H : _ /\ _ |- _ => destruct H end;
    repeat match goal with
    | H : String.eqb _ _ = true |- _ => apply String.eqb_eq in H
    | H : (_ =? _)%Z = true |- _ => apply Z.eqb_eq in H
    end; cbn [exact] in Ha, Hb;
    repeat match goal with H : _ /\ _ |- _ => destruct H end; try contradiction; subst; f_equal; auto.
  - unfold rat_eqb in E. apply andb_prop in E as [E1 E2]. apply Z.eqb_eq in E1. apply Z.eqb_eq in E2.
    destruct r, r0; cbn in *; congruence.
  - destruct c, c0; cbn in E; congruence.
  - apply var_ident_eq; auto.
  - apply fn_name_inj; auto.
  - apply eqb_prop; auto.
  - destruct o, o0; cbn in *; congruence.
Qed.

Lemma ident_refl : forall a, plain a -> ident a a = true.
Proof.
  intros a Ha. rewrite ident_tree by auto. destruct (tcmp_good (tree_of a)) as (_ & G & _). rewrite (proj2 (G _) eq_refl). reflexivity.
Qed.

Lemma tree_inj a b : exact a -> exact b -> tcmp (tree_of a) (tree_of b) = Eq -> a = b.
Proof. intros Ha Hb E. apply ident_eq; auto. rewrite ident_tree, E by (apply exact_plain; auto). reflexivity. Qed.

(** ** Sorting gives one result *)
Section Sort.
Variable I : impl.
Definition scmp (a b : expr) : comparison :=
  match (i_hash I a ?= i_hash I b)%Z with Eq => tcmp (tree_of a) (tree_of b) | c => c end.
Definition sle (a b : expr) : Prop := scmp a b <> Gt.

Lemma scmp_good a : (forall b, scmp b a = CompOpp (scmp a b)) /\ (forall b c z, chain (scmp a b) (scmp b c) = Some z -> scmp a c = z).
Proof.
  destruct (tcmp_good (tree_of a)) as (G1 & G2 & G3). split.
  - intros b. unfold scmp. rewrite Z.compare_antisym, G1. destruct (_ ?= _)%Z; auto.
  - intros b c z. unfold scmp. specialize (G3 (tree_of b) (tree_of c)).
    destruct (Z.compare_spec (i_hash I a) (i_hash I b)) as [E1|E1|E1];
      destruct (Z.compare_spec (i_hash I b) (i_hash I c)) as [E2|E2|E2];
      destruct (Z.compare_spec (i_hash I a) (i_hash I c)) as [E3|E3|E3]; try lia; intros E; auto;
      try (destruct (tcmp (tree_of a) (tree_of b))); try (destruct (tcmp (tree_of b) (tree_of c))); cbn in E; congruence.
Qed.

Lemma sort_lt_scmp a b t : plain a -> plain b -> sort_lt I a b = Ok t -> t = match scmp a b with Lt => true | _ => false end.
Proof.
  intros Ha Hb. unfold sort_lt, scmp.
  destruct (Z.ltb_spec (i_hash I a) (i_hash I b)).
  { intros E. injection E as <-. destruct (Z.compare_spec (i_hash I a) (i_hash I b)); auto; lia. }
  destruct (Z.gtb_spec (i_hash I a) (i_hash I b)).
  { intros E. injection E as <-. destruct (Z.compare_spec (i_hash I a) (i_hash I b)); auto; lia. }
  intros E. destruct (Z.compare_spec (i_hash I a) (i_hash I b)); try lia.
  destruct (order_tree a b Ha Hb) as [O|O]; rewrite O in E; [injection E as <-; auto|discriminate].
Qed.

Lemma sle_trans a b c : sle a b -> sle b c -> sle a c.
Proof.
  unfold sle. intros H1 H2 H3. destruct (scmp_good a) as (_ & G). specialize (G b c).
  destruct (scmp a b), (scmp b c); try congruence; cbn in G; specialize (G _ eq_refl); congruence.
Qed.
Lemma sle_antisym a b : exact a -> exact b -> sle a b -> sle b a -> a = b.
Proof.
  unfold sle. intros Ha Hb H1 H2. destruct (scmp_good a) as (G & _). rewrite G in H2.
  assert (E : scmp a b = Eq) by (destruct (scmp a b); auto; contradiction (H2 eq_refl) || contradiction (H1 eq_refl)).
  unfold scmp in E. destruct (_ ?= _)%Z; try discriminate. apply tree_inj; auto.
Qed.
Lemma sle_of a b : plain a -> plain b -> sort_lt I b a = Ok false -> sle a b.
Proof.
  intros Ha Hb H. apply sort_lt_scmp in H; auto. destruct (scmp_good b) as (G & _). unfold sle. rewrite G.
  destruct (scmp b a); cbn; congruence.
Qed.
Lemma sle_of' a b : plain a -> plain b -> sort_lt I b a = Ok true -> sle b a.
Proof. intros Ha Hb H. apply sort_lt_scmp in H; auto. unfold sle. destruct (scmp b a); congruence. Qed.

Lemma sort_insert_sorted x l m : plain x -> Forall plain l -> StronglySorted sle l -> sort_insert I x l = Ok m -> StronglySorted sle m.
Proof.
  revert m. induction l as [|y l IH]; intros m Hx Hl Hs H; cbn [sort_insert] in H.
  - injection H as <-. repeat constructor.
  - pose proof (Forall_inv Hl) as Hy. pose proof (Forall_inv_tail Hl) as Hl'. binv H. destruct x0.
    + binv H. injection H as <-. inversion Hs as [|? ? S1 S2]; subst. constructor; [eauto|].
      apply (Permutation_Forall (sort_insert_perm _ _ _ _ E0)). constructor; auto. apply sle_of'; auto.
    + injection H as <-. constructor; auto. inversion Hs as [|? ? S1 S2]; subst.
      assert (Hxy : sle x y) by (apply sle_of; auto). constructor; auto.
      eapply Forall_impl; [|exact S2]. intros a Ha. eapply sle_trans; eauto.
Qed.
Lemma sort_terms_sorted l m : Forall plain l -> sort_terms I l = Ok m -> StronglySorted sle m.
Proof.
  revert m. induction l as [|x l IH]; intros m Hl H; cbn [sort_terms] in H.
  - injection H as <-. constructor.
  - binv H. eapply sort_insert_sorted; [| | |exact H].
    + exact (Forall_inv Hl).
    + apply (Permutation_Forall (sort_terms_perm _ _ _ E)). exact (Forall_inv_tail Hl).
    + apply IH; auto. exact (Forall_inv_tail Hl).
Qed.

Lemma sorted_unique l m : Forall exact l -> StronglySorted sle l -> StronglySorted sle m -> Permutation l m -> l = m.
Proof.
  revert m. induction l as [|x l IH]; intros m He Hl Hm HP.
  - apply Permutation_nil in HP. auto.
  - destruct m as [|y m]; [apply Permutation_sym, Permutation_nil in HP; discriminate|].
    assert (Hem : Forall exact (y :: m)) by (apply (Permutation_Forall HP); auto).
    inversion Hl as [|? ? L1 L2]; subst. inversion Hm as [|? ? M1 M2]; subst.
    assert (x = y).
    { assert (Hx : In x (y :: m)) by (apply (Permutation_in _ HP); left; auto).
      assert (Hy : In y (x :: l)) by (apply (Permutation_in _ (Permutation_sym HP)); left; auto).
      destruct Hx as [->|Hx]; auto. destruct Hy as [->|Hy]; auto.
      rewrite Forall_forall in L2, M2. apply sle_antisym; auto; [exact (Forall_inv He)|exact (Forall_inv Hem)]. }
    subst y. f_equal. apply IH; auto; [exact (Forall_inv_tail He)|]. eapply Permutation_cons_inv; eauto.
Qed.

Lemma sort_terms_unique l l' m m' : Forall exact l -> Permutation l l' ->
  sort_terms I l = Ok m -> sort_terms I l' = Ok m' -> m = m'.
Proof.
  intros He HP H H'.
  assert (Hp : Forall plain l) by (eapply Forall_impl; [apply exact_plain|auto]).
  apply sorted_unique.
  - apply (Permutation_Forall (sort_terms_perm _ _ _ H)); auto.
  - eapply sort_terms_sorted; eauto.
  - eapply sort_terms_sorted; [|eauto]. apply (Permutation_Forall HP); auto.
  - rewrite <- (sort_terms_perm _ _ _ H), HP. apply sort_terms_perm with (I := I). auto.
Qed.
End Sort.

(** ** Exact constants *)
Inductive aval := AR (x : R) | AI | AU.
Definition aadd (a b : aval) : aval :=
  match a, b with
  | AU, _ | _, AU => AU
  | AI, AI => AU
  | AI, _ | _, AI => AI
  | AR x, AR y => AR (x + y)
  end.
Lemma aadd_comm a b : aadd a b = aadd b a.
Proof. destruct a, b; cbn; auto. f_equal. lra. Qed.
Lemma aadd_assoc a b c : aadd a (aadd b c) = aadd (aadd a b) c.
Proof. destruct a, b, c; cbn; auto. f_equal. lra. Qed.

Definition cex (c : coeff) : Prop :=
  match c with CInt z => in_i64 z | CRat q => canon q | CFlt _ => False | _ => True end.
Definition absc (c : coeff) : aval :=
  match c with CInt z => AR (IZR z) | CRat q => AR (rat_val q) | CInf => AI | _ => AU end.

Lemma add_num_abs a b c : cex a -> cex b -> add_num a b = Ok c -> cex c /\ absc c = aadd (absc a) (absc b).
Proof.
  intros Ha Hb E. destruct a, b; cbn in Ha, Hb; try contradiction; cbn [add_num] in E;
    try (injection E as <-; split; [exact Logic.I|reflexivity]); binv E; injection E as <-; cbn [cex absc aadd].
  - apply ck_add_inv in E0; auto. destruct E0 as [-> H]. split; auto. rewrite plus_IZR. reflexivity.
  - apply rat_add_inv in E0; auto using rat_of_int_canon. destruct E0 as [H ->]. split; auto. rewrite rat_of_int_val, Rplus_comm. reflexivity.
  - apply rat_add_inv in E0; auto using rat_of_int_canon. destruct E0 as [H ->]. split; auto. rewrite rat_of_int_val. reflexivity.
  - apply rat_add_inv in E0; auto. destruct E0 as [H ->]. split; auto.
Qed.

(** Exact numbers are determined by their value. *)
Definition exnum (e : expr) : Prop := exact e /\ (is_num e = true).
Definition nval (e : expr) : R := match e with EInt z => IZR z | ERat q => rat_val q | _ => 0 end.
Lemma canon_val_inj p q : canon p -> canon q -> rat_val p = rat_val q -> p = q.
Proof.
  intros Hp Hq E.
  assert (E' : QArith_base.Qcompare (ratQ p) (ratQ q) = Eq).
  { rewrite Qcompare_real by auto. unfold rat_val in E. rewrite E. apply Flocq.Core.Raux.Rcompare_Eq. auto. }
  apply QArith_base.Qeq_alt in E'. apply (proj2 (rat_eqb_spec p q Hp Hq)) in E'.
  unfold rat_eqb in E'. apply andb_prop in E' as [E1 E2]. apply Z.eqb_eq in E1. apply Z.eqb_eq in E2.
  destruct p, q; cbn in *; congruence.
Qed.
Lemma nval_inj a b : exnum a -> exnum b -> nval a = nval b -> a = b.
Proof.
  intros [A1 A2] [B1 B2] E. destruct a, b; cbn in *; try discriminate; try contradiction.
  - f_equal. apply eq_IZR. auto.
  - destruct B1 as [B1 B3]. rewrite <- (rat_of_int_val z) in E. apply canon_val_inj in E; auto using rat_of_int_canon. subst r.
    contradiction B3. reflexivity.
  - destruct A1 as [A1 A3]. rewrite <- (rat_of_int_val z) in E. apply canon_val_inj in E; auto using rat_of_int_canon. subst r.
    contradiction A3. reflexivity.
  - f_equal. apply canon_val_inj; tauto.
Qed.

Lemma expr_of_exact c e : cex c -> expr_of c = Ok e ->
  match absc c with AR x => exnum e /\ nval e = x | AI => e = EInf | AU => e = EUndef end.
Proof.
  intros H E. destruct c; cbn in H; try contradiction; cbn [expr_of absc] in *.
  - injection E as <-. split; auto. split; auto.
  - apply of_rat_inv in E; auto. destruct E as (W & _ & N & [[-> D]|[-> D]]).
    + split; [split; auto; exact (W (mk_env (fun _ => 0) (fun _ _ => 0)))|]. cbn. unfold rat_val. rewrite D. field.
    + split; [split; auto; exact (W (mk_env (fun _ => 0) (fun _ _ => 0)))|]. reflexivity.
  - congruence.
  - congruence.
Qed.
Lemma expr_of_unique c d e e' : cex c -> cex d -> absc c = absc d -> expr_of c = Ok e -> expr_of d = Ok e' -> e = e'.
Proof.
  intros Hc Hd E H H'. apply expr_of_exact in H; auto. apply expr_of_exact in H'; auto. rewrite <- E in H'.
  destruct (absc c); try congruence. destruct H, H'. apply nval_inj; auto. congruence.
Qed.
Lemma coeff_of_exact e c : exact e -> coeff_of e = Some c -> cex c.
Proof. intros H E. destruct e; cbn in E; try discriminate; injection E as <-; cbn in *; auto. apply H. Qed.

(** ** The terms of a sum *)
Lemma exact_EMul_perm l m : Permutation l m -> exact (EMul l) -> exact (EMul m).
Proof.
  intros HP [H1 H2]. split.
  - rewrite <- (Permutation_length (filter_perm is_num _ _ HP)). auto.
  - apply all_of_Forall. apply all_of_Forall in H2. apply (Permutation_Forall HP). auto.
Qed.

Lemma maybe_new_mul_exact I l e : maybe_new_mul I l = Ok e -> Forall exact l -> (List.length (filter is_num l) <= 1)%nat -> exact e.
Proof.
  intros E H HL. destruct l as [|a [|b t]]; cbn [maybe_new_mul] in E.
  - injection E as <-. cbn. unfold in_i64, INT64_MIN, INT64_MAX. lia.
  - injection E as <-. exact (Forall_inv H).
  - apply make_mul_inv in E as (m & -> & HP). apply (exact_EMul_perm _ _ HP). split; auto. apply all_of_Forall. auto.
Qed.

Lemma split_exact I l c m : split_multiplication I l = Ok (c, m) -> exact (EMul l) -> exnum c /\ exact m.
Proof.
  intros E HE. destruct HE as [H1 H2]. unfold split_multiplication in E.
  assert (HF : Forall exact l) by (apply all_of_Forall; auto).
  destruct (filter is_num l) as [|x [|y t]] eqn:EF; [| |cbn in H1; lia].
  - injection E as <- <-. split; [split; auto; cbn; unfold in_i64, INT64_MIN, INT64_MAX; lia|]. split; auto. rewrite EF. cbn. lia.
  - binv E. binv E. injection E as <- <-. cbn in E0. injection E0 as <-.
    assert (HI : In x (filter is_num l)) by (rewrite EF; left; auto). apply filter_In in HI as [HI HN].
    split; [split; auto; rewrite Forall_forall in HF; auto|].
    eapply maybe_new_mul_exact; eauto; [apply Forall_filter; auto|]. rewrite filter_neg_none. cbn. lia.
Qed.

Lemma as_coeff_exact I e c m : as_coeff_and_mul I e = Ok (c, m) -> exact e -> exnum c /\ exact m.
Proof.
  intros E H.
  assert (H1 : exnum (EInt 1)) by (split; auto; cbn; unfold in_i64, INT64_MIN, INT64_MAX; lia).
  assert (X1 : exact (EInt 1)) by apply H1.
  destruct e; cbn [as_coeff_and_mul] in E; try (injection E as <- <-; split; auto; split; auto; fail).
  destruct l as [|a [|b [|d t]]]; try (eapply split_exact; eauto; fail).
  destruct (is_num a && negb (is_num b)) eqn:E1; [|destruct (negb (is_num a) && is_num b) eqn:E2; [|eapply split_exact; eauto]].
  - injection E as <- <-. apply andb_prop in E1 as [E1 _]. destruct H as [_ (? & ? & _)]. split; auto. split; auto.
  - injection E as <- <-. apply andb_prop in E2 as [_ E2]. destruct H as [_ (? & ? & _)]. split; auto. split; auto.
Qed.

(** The leaves of a nested sum. *)
Fixpoint leaves (e : expr) : list expr :=
  match e with EAdd l => flat_map leaves l | _ => [e] end.

Lemma leaves_exact e : exact e -> Forall (fun x => exact x /\ is_add x = false) (leaves e).
Proof.
  induction e as [e IH] using expr_ind2. intros H.
  destruct e; try (constructor; [split; auto|constructor]).
  cbn [leaves]. cbn [exact] in H. apply all_of_Forall in H. induction H as [|x l Hx Hl IHl]; cbn [flat_map]; auto.
  apply Forall_app. split; [apply (Forall_inv IH); auto|apply IHl; exact (Forall_inv_tail IH)].
Qed.

Lemma efold_app {S A} (f : S -> A -> outcome S) l m s : efold f (l ++ m) s = (let* s' := efold f l s in efold f m s').
Proof.
  revert s. induction l as [|a l IH]; intros s; cbn; auto. destruct (f s a); cbn; auto.
Qed.

Section Map.
Variable I : impl.
Lemma key_eq_iff a b : exact a -> exact b -> (key_eq I a b = true <-> a = b).
Proof.
  intros Ha Hb. unfold key_eq. rewrite andb_true_iff. split.
  - intros [_ H]. apply ident_eq; auto.
  - intros ->. split; [apply Z.eqb_refl|apply ident_refl, exact_plain; auto].
Qed.

Definition tinv (t : list (expr * expr)) : Prop := NoDup (map fst t) /\ Forall (fun kv => exact (fst kv) /\ exnum (snd kv)) t.

Lemma lookup_iff k t : exact k -> tinv t -> forall c, lookup I k t = Some c <-> In (k, c) t.
Proof.
  intros Hk [H1 H2] c. induction t as [|[a w] t IH]; cbn [lookup In]; [split; [discriminate|tauto]|].
  pose proof (Forall_inv H2) as [Ha _]. cbn in Ha. inversion H1 as [|? ? N1 N2]; subst.
  destruct (key_eq I a k) eqn:E.
  - apply key_eq_iff in E; auto. subst a. split; [intros X; injection X as ->; auto|].
    intros [X|X]; [injection X as ->; auto|]. exfalso. apply N1. cbn. apply (in_map fst) in X. auto.
  - rewrite IH by (auto; exact (Forall_inv_tail H2)). split; auto. intros [X|X]; auto. injection X as -> ->.
    exfalso. assert (key_eq I k k = true) by (apply key_eq_iff; auto). congruence.
Qed.
Lemma lookup_none k t : exact k -> tinv t -> lookup I k t = None <-> ~ In k (map fst t).
Proof.
  intros Hk Ht. destruct (lookup I k t) eqn:E.
  - split; [discriminate|]. intros H. exfalso. apply H. apply lookup_iff in E; auto. apply (in_map fst) in E. auto.
  - split; auto. intros _ H. apply in_map_iff in H as ([a c] & <- & H). cbn in *. apply lookup_iff in H; auto. congruence.
Qed.
Lemma update_keys k v t : map fst (update I k v t) = map fst t.
Proof. induction t as [|[a w] t IH]; cbn; auto. destruct (key_eq I a k); cbn; congruence. Qed.
Lemma update_tinv k v t : tinv t -> exnum v -> tinv (update I k v t).
Proof.
  intros [H1 H2] Hv. split; [rewrite update_keys; auto|]. clear H1. induction H2 as [|[a w] t [Ha Hw] Ht IH]; cbn; auto.
  destruct (key_eq I a k); constructor; cbn; auto.
Qed.
Lemma lookup_update k v t : exact k -> tinv t -> lookup I k t <> None ->
  forall j, exact j -> lookup I j (update I k v t) = if ident k j then Some v else lookup I j t.
Proof.
  intros Hk [H1 H2] HL j Hj. induction t as [|[a w] t IH]; cbn [lookup update] in *; [contradiction|].
  pose proof (Forall_inv H2) as [Ha _]. cbn in Ha. inversion H1 as [|? ? N1 N2]; subst.
  destruct (key_eq I a k) eqn:E.
  - apply key_eq_iff in E; auto. subst a. cbn [lookup]. destruct (key_eq I k j) eqn:E2.
    + apply key_eq_iff in E2; auto. subst j. rewrite ident_refl by (apply exact_plain; auto). auto.
    + destruct (ident k j) eqn:E3; auto. apply ident_eq in E3; auto. subst j. assert (key_eq I k k = true) by (apply key_eq_iff; auto). congruence.
  - cbn [lookup]. rewrite IH by (auto; exact (Forall_inv_tail H2)). destruct (key_eq I a j) eqn:E2; auto.
    destruct (ident k j) eqn:E3; auto. apply ident_eq in E3; auto. subst j. congruence.
Qed.
Lemma lookup_app k a v t : exact k -> exact a -> tinv t -> lookup I a t = None ->
  lookup I k (t ++ [(a, v)]) = if ident a k then Some v else lookup I k t.
Proof.
  intros Hk Ha [H1 H2] HL. induction t as [|[b w] t IH]; cbn [lookup app] in *.
  - destruct (key_eq I a k) eqn:E; destruct (ident a k) eqn:E2; auto.
    + apply key_eq_iff in E; auto. subst. rewrite ident_refl in E2 by (apply exact_plain; auto). discriminate.
    + apply ident_eq in E2; auto. subst. assert (key_eq I k k = true) by (apply key_eq_iff; auto). congruence.
  - pose proof (Forall_inv H2) as [Hb _]. cbn in Hb. inversion H1 as [|? ? N1 N2]; subst.
    destruct (key_eq I b a) eqn:E; [discriminate|].
    destruct (key_eq I b k) eqn:E2.
    + apply key_eq_iff in E2; auto. subst b. destruct (ident a k) eqn:E3; auto. apply ident_eq in E3; auto. subst a.
      assert (key_eq I k k = true) by (apply key_eq_iff; auto). congruence.
    + apply IH; auto. exact (Forall_inv_tail H2).
Qed.

End Map.

(** ** Accumulating leaves into a constant and a map of terms *)
Section Acc.
Variable I : impl.
Variable op : aval -> aval -> aval.
Variable unit_ : aval.
Hypothesis op_comm : forall a b, op a b = op b a.
Hypothesis op_assoc : forall a b c, op a (op b c) = op (op a b) c.
(** Contribution of a leaf to the constant, and to the coefficient of a term. *)
Variable const_of : expr -> aval.
Variable term_of : expr -> option (expr * R).
Hypothesis term_exact : forall e k v, exact e -> term_of e = Some (k, v) -> exact k.

Definition has_key (k : expr) (e : expr) : Prop := exists v, term_of e = Some (k, v).
Definition weight (k : expr) (e : expr) : R :=
  match term_of e with Some (m, v) => if ident m k then v else 0 | None => 0 end.
Definition total_const (l : list expr) : aval := fold_right (fun e a => op (const_of e) a) unit_ l.
Definition total_weight (k : expr) (l : list expr) : R := fold_right (fun e a => weight k e + a) 0 l.

Lemma total_const_perm l m : Permutation l m -> total_const l = total_const m.
Proof.
  unfold total_const. induction 1; cbn [fold_right]; auto; [|rewrite !op_assoc, (op_comm (const_of y)); reflexivity|]; congruence.
Qed.
Lemma total_weight_perm k l m : Permutation l m -> total_weight k l = total_weight k m.
Proof. unfold total_weight. induction 1; cbn [fold_right]; try congruence; lra. Qed.
Lemma total_const_snoc l e : total_const (l ++ [e]) = op (total_const l) (const_of e).
Proof. rewrite (total_const_perm _ (e :: l)) by (rewrite Permutation_app_comm; reflexivity). apply op_comm. Qed.
Lemma total_weight_snoc k l e : total_weight k (l ++ [e]) = total_weight k l + weight k e.
Proof. rewrite (total_weight_perm k _ (e :: l)) by (rewrite Permutation_app_comm; reflexivity). unfold total_weight. cbn [fold_right]. lra. Qed.

Record sinv (l : list expr) (p : parts) : Prop := mk_sinv {
  si_cex : cex (p_coeff p);
  si_const : absc (p_coeff p) = total_const l;
  si_tinv : tinv (p_terms p);
  si_terms : forall k, exact k ->
    match lookup I k (p_terms p) with
    | None => Forall (fun e => ~ has_key k e) l
    | Some c => nval c = total_weight k l /\ Exists (has_key k) l
    end
}.

Lemma total_weight_none k l : exact k -> Forall exact l -> Forall (fun e => ~ has_key k e) l -> total_weight k l = 0.
Proof.
  intros Hk Hl H. induction H as [|e l He Hn IH]; auto. change (weight k e + total_weight k l = 0). pose proof (Forall_inv Hl) as Hx. rewrite IH by exact (Forall_inv_tail Hl).
  replace (weight k e) with 0; [lra|]. unfold weight. destruct (term_of e) as [[m v]|] eqn:E; auto.
  destruct (ident m k) eqn:E2; auto. exfalso. apply He. exists v. rewrite E. f_equal. f_equal.
  apply ident_eq; auto. eapply term_exact; eauto.
Qed.

Lemma terms_perm l l' p p' : Forall exact l -> Permutation l l' -> sinv l p -> sinv l' p' ->
  absc (p_coeff p) = absc (p_coeff p') /\ Permutation (p_terms p) (p_terms p').
Proof.
  intros Hl HP [S1 S2 S3 S4] [S1' S2' S3' S4']. split; [rewrite S2, S2'; apply total_const_perm; auto|].
  assert (Hl' : Forall exact l') by (apply (Permutation_Forall HP); auto).
  assert (K : forall a b p p', Permutation a b -> tinv (p_terms p) -> tinv (p_terms p') ->
     (forall k, exact k -> match lookup I k (p_terms p) with None => Forall (fun e => ~ has_key k e) a | Some c => nval c = total_weight k a /\ Exists (has_key k) a end) ->
     (forall k, exact k -> match lookup I k (p_terms p') with None => Forall (fun e => ~ has_key k e) b | Some c => nval c = total_weight k b /\ Exists (has_key k) b end) ->
     forall kv, In kv (p_terms p) -> In kv (p_terms p')).
  { intros a b q q' HQ T T' A B [k c] Hin.
    assert (Hk : exact k /\ exnum c). { destruct T as [_ T]. rewrite Forall_forall in T. apply (T _ Hin). } destruct Hk as [Hk Hc].
    apply (lookup_iff I); auto. apply (lookup_iff I) in Hin; auto. specialize (A k Hk). rewrite Hin in A. destruct A as [A1 A2].
    specialize (B k Hk). destruct (lookup I k (p_terms q')) as [c'|] eqn:EL.
    - f_equal. destruct B as [B1 _]. apply nval_inj; auto.
      + apply lookup_iff in EL; auto. destruct T' as [_ T']. rewrite Forall_forall in T'. apply (T' _ EL).
      + rewrite A1, B1. symmetry. apply total_weight_perm; auto.
    - exfalso. apply Exists_exists in A2 as (x & X1 & X2). rewrite Forall_forall in B. apply (B x); auto. apply (Permutation_in _ HQ); auto. }
  apply NoDup_Permutation.
  - destruct S3 as [S3 _]. apply NoDup_map_inv in S3. auto.
  - destruct S3' as [S3' _]. apply NoDup_map_inv in S3'. auto.
  - intros kv. split; [apply (K l l' p p'); auto|apply (K l' l p' p); auto using Permutation_sym].
Qed.

End Acc.

Section Sum.
Variable I : impl.
Variable r : ops.
Hypothesis Hr : forall a b e, exnum a -> exnum b -> o_add r [a; b] = Ok e -> exnum e /\ nval e = nval a + nval b.

Lemma add_terms_leaves e : forall p, add_terms I r p e = efold (add_term_leaf I r) (leaves e) p.
Proof.
  induction e as [e IH] using expr_ind2. intros p.
  destruct e; try (cbn [leaves efold add_terms]; destruct (add_term_leaf I r p _); reflexivity).
  cbn [leaves add_terms]. revert p. induction l as [|x l IHl]; intros p; cbn [flat_map efold]; auto.
  rewrite efold_app. rewrite (Forall_inv IH p). destruct (efold (add_term_leaf I r) (leaves x) p); cbn; auto.
  apply IHl. exact (Forall_inv_tail IH).
Qed.
Lemma add_terms_all l : forall p, efold (add_terms I r) l p = efold (add_term_leaf I r) (flat_map leaves l) p.
Proof.
  induction l as [|x l IH]; intros p; cbn [flat_map efold]; auto. rewrite efold_app, add_terms_leaves.
  destruct (efold _ (leaves x) p); cbn; auto.
Qed.

(** Contribution of a leaf to the constant, and to the coefficient of a term. *)
Definition const_of (e : expr) : aval := match coeff_of e with Some c => absc c | None => AR 0 end.
Definition term_of (e : expr) : option (expr * R) :=
  match coeff_of e with
  | Some _ => None
  | None => match as_coeff_and_mul I e with Ok (c, m) => Some (m, nval c) | _ => None end
  end.
Lemma term_exact e k v : exact e -> term_of e = Some (k, v) -> exact k.
Proof.
  intros He H. unfold term_of in H. destruct (coeff_of e); [discriminate|].
  destruct (as_coeff_and_mul I e) as [[c m]| | | |] eqn:E; try discriminate. injection H as -> _. apply as_coeff_exact in E; tauto.
Qed.
Notation sinv := (sinv I aadd (AR 0) const_of term_of).
Notation has_key := (has_key term_of).
Notation total_const := (total_const aadd (AR 0) const_of).
Notation total_const_snoc := (total_const_snoc aadd (AR 0) aadd_comm aadd_assoc const_of).
Notation total_weight_none := (total_weight_none term_of term_exact).

Lemma leaf_step l p e p' : Forall exact l -> exact e -> sinv l p -> add_term_leaf I r p e = Ok p' -> sinv (l ++ [e]) p'.
Proof.
  intros Hl He [S1 S2 S3 S4] H. unfold add_term_leaf in H.
  destruct (coeff_of e) as [c|] eqn:EC.
  - binv H. injection H as <-. apply add_num_abs in E; auto; [|eapply coeff_of_exact; eauto]. destruct E as [X1 X2].
    assert (ET : term_of e = None) by (unfold term_of; rewrite EC; auto).
    split; cbn [p_coeff p_terms]; auto.
    + rewrite total_const_snoc, X2, S2. unfold const_of. rewrite EC. reflexivity.
    + intros k Hk. specialize (S4 k Hk). destruct (lookup I k (p_terms p)) as [v|].
      * destruct S4 as [Y1 Y2]. rewrite total_weight_snoc. unfold weight. rewrite ET, Y1. split; [lra|].
        apply Exists_app. auto.
      * apply Forall_app. split; auto. constructor; auto. intros [v Hv]. congruence.
  - binv H. destruct x as [c m]. assert (HX := as_coeff_exact _ _ _ _ E He). destruct HX as [Hc Hm].
    assert (ET : term_of e = Some (m, nval c)) by (unfold term_of; rewrite EC, E; auto).
    assert (EC0 : total_const (l ++ [e]) = total_const l).
    { rewrite total_const_snoc. replace (const_of e) with (AR 0) by (unfold const_of; rewrite EC; auto).
      destruct (total_const l); cbn; auto. f_equal. lra. }
    destruct (lookup I m (p_terms p)) as [old|] eqn:EL.
    + binv H. injection H as <-. pose proof (S4 m Hm) as HM. rewrite EL in HM. destruct HM as [M1 M2].
      assert (Ho : exnum old). { apply lookup_iff in EL; auto. destruct S3 as [_ S3]. rewrite Forall_forall in S3. apply S3 in EL. apply EL. }
      apply Hr in E0; auto. destruct E0 as [X1 X2].
      split; cbn [p_coeff p_terms]; auto; [congruence|apply update_tinv; auto|].
      intros k Hk. rewrite lookup_update by (auto; congruence). rewrite total_weight_snoc. unfold weight. rewrite ET.
      destruct (ident m k) eqn:EI.
      * apply ident_eq in EI; auto. subst k. rewrite X2, M1. split; [lra|]. apply Exists_app. auto.
      * specialize (S4 k Hk). destruct (lookup I k (p_terms p)) as [v|].
        -- destruct S4 as [Y1 Y2]. split; [lra|]. apply Exists_app. auto.
        -- apply Forall_app. split; auto. constructor; auto. intros [v Hv]. rewrite ET in Hv. injection Hv as -> _.
           rewrite ident_refl in EI by (apply exact_plain; auto). discriminate.
    + injection H as <-. split; cbn [p_coeff p_terms]; auto; [congruence| |].
      * destruct S3 as [T1 T2]. assert (HN : ~ In m (map fst (p_terms p))) by (apply (lookup_none I); auto; split; auto).
        split; [rewrite map_app; cbn|apply Forall_app; split; auto].
        apply (Permutation_NoDup (l := m :: map fst (p_terms p))); [rewrite Permutation_app_comm; reflexivity|constructor; auto].
      * intros k Hk. rewrite lookup_app by auto. rewrite total_weight_snoc. unfold weight. rewrite ET.
        pose proof (S4 m Hm) as HM. rewrite EL in HM.
        destruct (ident m k) eqn:EI.
        -- apply ident_eq in EI; auto. subst k. rewrite total_weight_none by auto. split; [lra|]. apply Exists_app. right. constructor. exists (nval c). auto.
        -- specialize (S4 k Hk). destruct (lookup I k (p_terms p)) as [v|].
           ++ destruct S4 as [Y1 Y2]. split; [lra|]. apply Exists_app. auto.
           ++ apply Forall_app. split; auto. constructor; auto. intros [v Hv]. rewrite ET in Hv. injection Hv as -> _.
              rewrite ident_refl in EI by (apply exact_plain; auto). discriminate.
Qed.

Lemma leaf_loop l : forall l0 p p', Forall exact l0 -> Forall exact l -> sinv l0 p -> efold (add_term_leaf I r) l p = Ok p' -> sinv (l0 ++ l) p'.
Proof.
  induction l as [|e l IH]; intros l0 p p' H0 Hl HS H; cbn [efold] in H.
  - injection H as <-. rewrite app_nil_r. auto.
  - binv H. replace (l0 ++ e :: l) with ((l0 ++ [e]) ++ l) by (rewrite <- app_assoc; auto).
    eapply IH; [| |eapply leaf_step|]; eauto; try exact (Forall_inv_tail Hl); try exact (Forall_inv Hl).
    apply Forall_app. split; auto. constructor; auto. exact (Forall_inv Hl).
Qed.
Lemma sinv_0 : sinv [] (mk_parts (CInt 0) []).
Proof.
  split; cbn; auto; [unfold in_i64, INT64_MIN, INT64_MAX; lia|split; constructor].
Qed.

Lemma flat_leaves_exact l : Forall exact l -> Forall exact (flat_map leaves l).
Proof.
  induction 1 as [|e l He Hl IH]; cbn; auto. apply Forall_app. split; auto.
  eapply Forall_impl; [|apply leaves_exact; auto]. cbn. tauto.
Qed.

Lemma normalize_terms p p' : Permutation (p_terms p) (p_terms p') -> Permutation (p_terms (normalize p)) (p_terms (normalize p')).
Proof. intros H. cbn. apply filter_perm. auto. Qed.

Lemma emap_perm {A B} (f : A -> outcome B) l l' m m' : Permutation l l' -> emap f l = Ok m -> emap f l' = Ok m' -> Permutation m m'.
Proof.
  intros HP H H'. apply emap_inv in H. apply emap_inv in H'.
  revert m m' H H'. induction HP; intros m m' H H'.
  - inversion H; inversion H'; subst. auto.
  - inversion H as [|? y ? my Y1 Y2]; inversion H' as [|? z ? mz Z1 Z2]; subst. replace z with y by congruence. constructor. auto.
  - inversion H as [|? a1 ? m1 A1 A2]; subst. inversion A2 as [|? a2 ? m2 B1 B2]; subst.
    inversion H' as [|? b1 ? n1 C1 C2]; subst. inversion C2 as [|? b2 ? n2 D1 D2]; subst.
    replace b1 with a2 by congruence. replace b2 with a1 by congruence.
    replace n2 with m2; [constructor|]. clear -B2 D2. revert n2 D2. induction B2; intros n2 D2; inversion D2; subst; auto. f_equal; [congruence|auto].
  - assert (HM : exists n, Forall2 (fun a b => f a = Ok b) l' n).
    { clear -HP1 H. revert m H. induction HP1; intros m H.
      - exists []. auto.
      - inversion H; subst. destruct (IHHP1 _ H4) as [n Hn]. eexists; eauto.
      - inversion H as [|? a1 ? m1 A1 A2]; subst. inversion A2 as [|? a2 ? m2 B1 B2]; subst. exists (a2 :: a1 :: m2). auto.
      - destruct (IHHP1_1 _ H) as [n Hn]. eauto. }
    destruct HM as [n Hn]. transitivity n; eauto.
Qed.

Lemma make_add_unique l l' e e' : Permutation l l' -> make_add I l = Ok e -> make_add I l' = Ok e' -> exact e -> e = e'.
Proof.
  intros HP H H' He. unfold make_add in *. binv H. binv H'. injection H as <-. injection H' as <-. f_equal.
  apply (sort_terms_unique I l l' x x0); auto. apply all_of_Forall in He.
  apply (Permutation_Forall (Permutation_sym (sort_terms_perm _ _ _ E))). auto.
Qed.

Lemma create_addition_unique p p' e e' : (forall l, Permutation (i_iter I l) l) ->
  cex (p_coeff p) -> cex (p_coeff p') -> absc (p_coeff p) = absc (p_coeff p') -> Permutation (p_terms p) (p_terms p') ->
  create_addition I r p = Ok e -> create_addition I r p' = Ok e' -> exact e -> e = e'.
Proof.
  intros HI C C' HC HT H H' He. unfold create_addition in H, H'. binv H. binv H'.
  assert (x0 = x) by (symmetry; eapply expr_of_unique; [| |exact HC| |]; eauto). subst x0.
  destruct (is_undefined x); [congruence|]. binv H. binv H'.
  assert (HP : Permutation x0 x1).
  { eapply emap_perm; [|exact E1|exact E2]. rewrite !HI. auto. }
  assert (HP2 : Permutation ((if is_zero x then [] else [x]) ++ x0) ((if is_zero x then [] else [x]) ++ x1)) by (apply Permutation_app_head; auto).
  set (a := (if is_zero x then [] else [x]) ++ x0) in *. set (b := (if is_zero x then [] else [x]) ++ x1) in *.
  clearbody a b. pose proof (Permutation_length HP2) as HL.
  destruct a as [|a1 [|a2 a]], b as [|b1 [|b2 b]]; try discriminate HL.
  - congruence.
  - apply Permutation_length_1 in HP2. congruence.
  - eapply make_add_unique; eauto.
Qed.

Lemma add_apply_swap a b : exact a -> exact b ->
  match add_apply a b, add_apply b a with
  | Some (x, y), Some (x', y') => forall c c' e e', add_num x y = Ok c -> add_num x' y' = Ok c' -> expr_of c = Ok e -> expr_of c' = Ok e' -> e = e'
  | None, None => True
  | _, _ => False
  end.
Proof.
  intros Ha Hb. unfold add_apply. pose proof (coeff_of_exact a) as CA. pose proof (coeff_of_exact b) as CB.
  destruct (coeff_of a) as [x|] eqn:EA; destruct (coeff_of b) as [y|] eqn:EB; auto.
  - replace (match x with CUndef => _ | _ => _ end) with (Some (x, y)) by (destruct x, y; reflexivity).
    replace (match y with CUndef => _ | _ => _ end) with (Some (y, x)) by (destruct x, y; reflexivity).
    intros c c' e e' H1 H2 H3 H4. apply add_num_abs in H1; auto. apply add_num_abs in H2; auto. destruct H1 as [X1 X2], H2 as [Y1 Y2].
    apply (expr_of_unique c c' e e' X1 Y1); auto. rewrite X2, Y2. apply aadd_comm.
  - destruct x; auto; intros; congruence.
  - destruct y; auto; intros; congruence.
Qed.

Lemma add_body_unique l l' e e' : (forall l, Permutation (i_iter I l) l) -> Forall exact l -> Permutation l l' ->
  add_body I r l = Ok e -> add_body I r l' = Ok e' -> exact e -> e = e'.
Proof.
  intros HI Hl HP H H' He.
  assert (Hl' : Forall exact l') by (apply (Permutation_Forall HP); auto).
  assert (G : add_parts I r l = Ok e -> add_parts I r l' = Ok e' -> e = e').
  { clear H H'. intros H H'. unfold add_parts in *. binv H. binv H'. rewrite add_terms_all in E, E0.
    apply leaf_loop with (l0 := []) in E; auto using sinv_0, flat_leaves_exact.
    apply leaf_loop with (l0 := []) in E0; auto using sinv_0, flat_leaves_exact. cbn [app] in E, E0.
    assert (HF : Permutation (flat_map leaves l) (flat_map leaves l')) by (apply Permutation_flat_map; auto).
    destruct (terms_perm I aadd (AR 0) aadd_comm aadd_assoc _ _ _ _ _ _ (flat_leaves_exact _ Hl) HF E E0) as [Y1 Y2].
    eapply create_addition_unique; [auto| | | | |exact H|exact H'|auto]; cbn [p_coeff normalize]; auto; try (apply E || apply E0).
    apply normalize_terms. auto. }
  pose proof (Permutation_length HP) as HL.
  destruct l as [|a [|b [|c l]]], l' as [|a' [|b' [|c' l']]]; try discriminate HL; cbn [add_body] in H, H'.
  - discriminate.
  - apply Permutation_length_1 in HP. congruence.
  - apply Permutation_length_2 in HP. destruct HP as [[-> ->]|[-> ->]]; [congruence|].
    pose proof (add_apply_swap _ _ (Forall_inv Hl) (Forall_inv (Forall_inv_tail Hl))) as S.
    destruct (add_apply b' a') as [[x y]|]; destruct (add_apply a' b') as [[x' y']|]; try contradiction.
    + binv H. binv H'. eapply S; eauto.
    + apply G; auto.
  - apply G; auto.
Qed.
End Sum.

Lemma add_numbers I n a b e : exnum a -> exnum b -> e_add I n [a; b] = Ok e -> exnum e /\ nval e = nval a + nval b.
Proof.
  intros [Xa Na] [Xb Nb] H. destruct n; [discriminate|]. cbn [e_add ops_n o_add step_ops add_body] in H. unfold add_apply in H.
  assert (HA : exists c, coeff_of a = Some c /\ cex c /\ absc c = AR (nval a)).
  { destruct a; try discriminate; try contradiction; eexists; split; try reflexivity; split; try reflexivity; apply Xa. }
  assert (HB : exists c, coeff_of b = Some c /\ cex c /\ absc c = AR (nval b)).
  { destruct b; try discriminate; try contradiction; eexists; split; try reflexivity; split; try reflexivity; apply Xb. }
  destruct HA as (ca & EA & A1 & A2), HB as (cb & EB & B1 & B2). rewrite EA, EB in H.
  assert (H' : (let* c := add_num ca cb in expr_of c) = Ok e) by (destruct ca, cb; exact H). clear H. rename H' into H. binv H. apply add_num_abs in E; auto. destruct E as [C1 C2].
  apply expr_of_exact in H; auto. rewrite C2, A2, B2 in H. cbn in H. exact H.
Qed.

Theorem e_add_perm I n n' l l' e e' : impl_ok I -> Forall exact l -> Permutation l l' ->
  e_add I n l = Ok e -> e_add I n' l' = Ok e' -> exact e -> e = e'.
Proof.
  intros [HI _] Hl HP H H' He.
  assert (M : forall k m o, (k <= m)%nat -> e_add I k o = Ok e \/ e_add I k o = Ok e' -> e_add I m o = e_add I k o).
  { intros k m o Hk HO. destruct (le_add _ _ (ops_n_le I k m Hk) o) as [X|X].
    - unfold e_add in HO. destruct HO as [HO|HO]; congruence.
    - unfold e_add. congruence. }
  rewrite <- (M n (Nat.max n n') l) in H by (auto; lia). rewrite <- (M n' (Nat.max n n') l') in H' by (auto; lia).
  destruct (Nat.max n n') as [|N]; [discriminate|]. cbn [e_add ops_n o_add step_ops] in H, H'.
  eapply add_body_unique; [|exact HI|exact Hl|exact HP|exact H|exact H'|exact He].
  intros a b x Ha Hb Hx. eapply (add_numbers I N); eauto.
Qed.
