(** Sorting the operands of sums and products keeps the value. *)
From Coq Require Import String List Arith ZArith Reals Bool Lia Lra Permutation.
From Verif Require Import Outcome RationalModel RationalSpec ExprModel BuildModel FuncModel DerivModel MapModel ExprSpec OrderSpec DerivSpec MapSpec
  NumProofs ExprProofs ValProofs OrderProofs SumProofs BuildProofs FuncProofs DerivProofs DerivFnProofs MapProofs IrModel LowerModel LowerSpec.
Import ListNotations.
Open Scope nat_scope.

Lemma order_insert_perm x l : forall l', order_insert x l = Ok l' -> Permutation (x :: l) l'.
Proof.
  induction l as [|y l IH]; intros l' H; cbn [order_insert] in H.
  - injection H as <-. apply Permutation_refl.
  - binv H. destruct x0.
    + binv H. injection H as <-. apply IH in E0. eapply perm_trans; [apply perm_swap|]. now constructor.
    + injection H as <-. apply Permutation_refl.
Qed.
Lemma order_sort_perm l : forall l', order_sort l = Ok l' -> Permutation l l'.
Proof.
  induction l as [|x l IH]; intros l' H; cbn [order_sort] in H.
  - injection H as <-. constructor.
  - binv H. apply order_insert_perm in H. eapply perm_trans; [|exact H]. constructor. now apply IH.
Qed.

Lemma factors_fine_children tr e : factors_fine tr e -> Forall (factors_fine tr) (children e).
Proof.
  destruct e; cbn [factors_fine children]; intros H; auto; try (constructor; auto; fail);
  repeat match goal with H : _ /\ _ |- _ => destruct H end; auto using all_of_Forall.
  all: apply all_of_Forall; auto.
Qed.

Lemma wf_shaped s : forall e, wf s e -> shaped e.
Proof.
  induction e as [e IH] using children_ind. intros W.
  assert (L : forall l, Forall (fun e => wf s e -> shaped e) l -> fold_right (fun x P => wf s x /\ P) True l -> all_of shaped l).
  { intros l. induction 1 as [|a l Ha _ IHl]; cbn; [auto|]. intros [H1 H2]. split; auto. }
  destruct e; cbn [wf shaped children] in *; auto.
  all: repeat match goal with
    | H : Forall _ (_ :: _) |- _ => pose proof (Forall_inv H); apply Forall_inv_tail in H
    | H : _ /\ _ |- _ => destruct H end; auto.
Qed.

Lemma sorter_other I n e : (forall l, e <> EAdd l) -> (forall l, e <> EMul l) -> sorter I n e tt = map_children I n (sorter I n) e tt.
Proof. intros H1 H2. destruct e; try reflexivity; [now destruct (H2 l)|now destruct (H1 l)]. Qed.

Lemma wf_children s e : wf s e -> Forall (wf s) (children e).
Proof.
  assert (L : forall l, fold_right (fun x P => wf s x /\ P) True l -> Forall (wf s) l).
  { induction l; cbn; [constructor|]. intros [H1 H2]. constructor; auto. }
  destruct e; cbn [wf children]; intros H; repeat match goal with H : _ /\ _ |- _ => destruct H end; auto 6.
Qed.

Lemma sorter_sound I n s : impl_ok I -> env_ok s -> forall e, wf s e -> logs_fine (sort_expression I n) s e ->
  factors_fine (sort_expression I n) e -> sound1 s s (sorter I n) e.
Proof.
  intros HI Hs. induction e as [e IH] using children_ind. intros W Lg Fa d H.
  assert (Ch : Forall (sound1 s s (sorter I n)) (children e)).
  { pose proof (wf_children s e W) as Wc. pose proof (logs_fine_children _ _ _ Lg) as Lc. pose proof (factors_fine_children _ _ Fa) as Fc.
    rewrite Forall_forall in *. auto. }
  assert (Tr : forall a b, sorter I n a tt = Ok (b, tt) -> sort_expression I n a = Ok b).
  { intros a b E. unfold sort_expression. now rewrite E. }
  assert (Other : (forall l, e <> EAdd l) -> (forall l, e <> EMul l) -> sound s d (eval s e) /\ (is_bool e = true -> is_bool d = true)).
  { intros N1 N2. rewrite sorter_other in H by assumption.
    apply (map_sound I HI n s s Hs eq_refl (sorter I n)) in H; auto.
    - now apply (wf_shaped s).
    - intros l ->. cbn [logs_fine] in Lg. destruct Lg as [_ Lg]. specialize (Lg eq_refl). apply all_of_Forall in Lg.
      eapply Forall_impl; [|exact Lg]. intros a Ha b Hb. exact (Ha b (Tr _ _ Hb)). }
  destruct e; try (apply Other; intros; discriminate); clear Other; cbn [sorter] in H.
  - binv H. destruct x as [ds []]. binv H. injection H as <-. cbn [fst] in *. apply order_sort_perm in E0.
    destruct (tmap_sound s s (sorter I n) l ds tt Ch E) as (P & Wd & R). split; [|discriminate]. split.
    + apply (wf_EMul_perm s ds x E0). apply wf_EMul. apply wf_EMul in W. destruct W as (W1 & W2 & W3 & W4).
      cbn [factors_fine] in Fa. destruct Fa as [_ Fa]. apply all_of_Forall in Fa.
      assert (N : length ds = length l /\ length (filter is_num ds) = length (filter is_num l) /\ Forall (fun x => is_zero x = false) ds).
      { clear - P Fa Tr. induction P as [|a b l ds H P IH]; [auto|].
        destruct (Forall_inv Fa b (Tr _ _ H)) as [F1 F2]. destruct (IH (Forall_inv_tail Fa)) as (I1 & I2 & I3).
        cbn. rewrite F1. split; [lia|]. split; [destruct (is_num a); cbn; lia|]. constructor; auto. }
      destruct N as (N1 & N2 & N3). rewrite N1, N2. auto.
    + cbn [eval]. rewrite <- (vprod_perm _ _ (Permutation_map (eval s) E0)). now apply vprod_mono.
  - binv H. destruct x as [ds []]. binv H. injection H as <-. cbn [fst] in *. apply order_sort_perm in E0.
    destruct (tmap_sound s s (sorter I n) l ds tt Ch E) as (P & Wd & R). split; [|discriminate]. split.
    + cbn [wf]. apply (wf_list s). rewrite Forall_forall in *. intros a Ha. apply Wd. now apply (Permutation_in a (Permutation_sym E0)).
    + cbn [eval]. rewrite <- (vsum_perm _ _ (Permutation_map (eval s) E0)). now apply vsum_mono.
Qed.

Lemma sorter_boolean I n e d : is_boolean e = true -> sort_expression I n e = Ok d -> is_boolean d = true.
Proof.
  intros B H. unfold sort_expression in H. binv H. injection H as <-. destruct e; try discriminate B; cbn [sorter map_children] in E.
  - injection E as <-. reflexivity.
  - binv E. binv E. binv E. injection E as <-. cbn [fst]. unfold rel_fn in E2.
    destruct (_ || _) eqn:Ei; [discriminate|]. binv E2. match goal with o : option bool |- _ => destruct o end; [injection E2 as <-; reflexivity|].
    destruct o; try (injection E2 as <-; reflexivity). binv E2. match goal with o : comparison |- _ => destruct o end; injection E2 as <-; reflexivity.
Qed.

(** ** The expressions whose value is kept *)
Section Good.
Variable I : impl.
Variable n : nat.
Variable s : ExprSpec.env.
Hypothesis HI : impl_ok I.
Hypothesis Hs : env_ok s.
Definition good (e : expr) : Prop := wf s e /\ lowerable I n s e.

Lemma meets_trans a b c : meets I n a b -> meets I n b c -> meets I n a c.
Proof.
  intros H. induction 1; auto.
  - eapply meets_child; [apply IHmeets; exact H|assumption].
  - eapply meets_negated; [apply IHmeets; exact H|eassumption..].
  - eapply meets_reciprocal; [apply IHmeets; exact H|eassumption..].
Qed.
Lemma lowerable_meets e d : lowerable I n s e -> meets I n e d -> lowerable I n s d.
Proof. intros H M c Mc. apply H. eapply meets_trans; eauto. Qed.

Lemma g_child e c : good e -> In c (children e) -> good c.
Proof.
  intros [W L] H. split.
  - pose proof (wf_children s e W) as F. rewrite Forall_forall in F. auto.
  - eapply lowerable_meets; [exact L|]. eapply meets_child; [apply meets_refl|exact H].
Qed.
Lemma g_int (e : expr) z : good e -> in_i64 z -> good (EInt z).
Proof.
  intros _ H. split; [exact H|]. intros d M.
  assert (D : d = EInt z).
  { remember (EInt z) as e0 eqn:E0. induction M; subst; auto.
    - rewrite (IHM eq_refl) in H0. destruct H0.
    - discriminate (IHM eq_refl).
    - discriminate (IHM eq_refl). }
  subst d. split; [reflexivity|]. discriminate.
Qed.
Lemma g_neg l a a' : good (EMul l) -> In a l -> is_num a = true -> e_neg I n a = Ok a' -> good a'.
Proof.
  intros G Ha N E. assert (Ga : good a) by (apply (g_child (EMul l)); auto). split.
  - apply (e_neg_sound I HI s Hs n) in E; [apply E|apply Ga].
  - eapply lowerable_meets; [apply G|]. eapply meets_negated; [apply meets_refl|..]; eauto.
Qed.
Lemma g_recip b x nx r : good (EPow b x) -> negative_exponent I x -> e_neg I n x = Ok nx -> e_pow I n b nx = Ok r -> good r.
Proof.
  intros G Ne E1 E2. pose proof G as [[Wb Wx] L]. split.
  - apply (e_neg_sound I HI s Hs n) in E1 as [Wn _]; auto. now apply (e_pow_sound I HI s Hs n) in E2 as [Wr _].
  - eapply lowerable_meets; [exact L|]. eapply meets_reciprocal; [apply meets_refl|..]; eauto.
Qed.
Lemma g_base b x : good (EPow b x) -> negative_exponent I x -> is_num x = false -> eval s b <> Rv 0.
Proof. intros [_ L] H1 H2. destruct (L _ (meets_refl I n _)) as [_ H]. now apply (H b x). Qed.
Lemma g_free e : good e -> float_free e = true.
Proof. intros [_ L]. apply (L e (meets_refl I n e)). Qed.
End Good.
