From Coq Require Import String List ZArith Reals Bool Lra Lia Permutation.
From Verif Require Import Outcome RationalModel RationalSpec ExprModel ExprSpec ValProofs ExprProofs OrderProofs OrderSpec SumSpec NumProofs BuildModel BuildProofs PowProofs
  SumProofs FuncModel FuncProofs DerivModel DerivSpec DerivFnProofs DerivProofs MapModel MapSpec MapProofs TransSpec ClosureProofs CollectProofs MapRunProofs CseModel CseSpec.
Import ListNotations.
Open Scope nat_scope.

Lemma operands_children e : operands e = children e.
Proof. destruct e; reflexivity. Qed.

Fixpoint size (e : expr) : nat :=
  match e with
  | EMul l | EAdd l | EFun _ l | ESymFn _ l => S (list_sum (map size l))
  | EPow a b | EDeriv a b _ | ERel _ a b => S (size a + size b)
  | EUneval a | EIver a | EStop a => S (size a)
  | ECond a b c | ESubst a b c => S (size a + size b + size c)
  | _ => 1
  end.
Lemma sum_in {A} (f : A -> nat) l x : In x l -> f x <= list_sum (map f l).
Proof. induction l as [|a l IH]; cbn; [tauto|]. intros [->|H]; [lia|]. specialize (IH H). unfold list_sum in *. lia. Qed.
Lemma size_child c e : In c (children e) -> size c < size e.
Proof.
  destruct e; cbn [children size]; intros H; try (destruct H; fail).
  all: try (apply (sum_in size) in H; lia).
  all: repeat (destruct H as [<-|H]; [lia|]); destruct H.
Qed.
Lemma size_part a e : part_of a e -> size a < size e.
Proof. induction 1 as [e H|c e H _ IH]; rewrite operands_children in H; apply size_child in H; lia. Qed.
Lemma part_trans a b c : part_of a b -> part_of b c -> part_of a c.
Proof. intros H. induction 1 as [e He|d e Hd _ IH]; eapply part_deep; eauto. Qed.
Lemma part_child c e root : In c (children e) -> part_of e root -> part_of c root.
Proof. intros H. apply part_trans. constructor. now rewrite operands_children. Qed.

Section Keys.
Context (I : impl).
Lemma exact_part a e : exact e -> part_of a e -> exact a.
Proof.
  intros He H. revert He. induction H as [e H|c e H _ IH]; intros He; rewrite operands_children in H; apply exact_children in He;
  rewrite Forall_forall in He; auto.
Qed.
Lemma ident_iff a b : exact a -> exact b -> (ident a b = true <-> a = b).
Proof. intros Ha Hb. split; [apply ident_eq; auto|]. intros ->. apply ident_refl, SumProofs.exact_plain; auto. Qed.
Lemma key_false a b : exact a -> exact b -> (key_eq I a b = false <-> a <> b).
Proof. intros Ha Hb. rewrite <- (key_eq_iff I a b Ha Hb). destruct (key_eq I a b); split; intros; congruence. Qed.
Lemma key_refl a : exact a -> key_eq I a a = true.
Proof. intros Ha. apply (key_eq_iff I); auto. Qed.
Lemma key_ident a b : exact a -> exact b -> key_eq I a b = ident a b.
Proof. intros Ha Hb. apply eq_true_iff_eq. rewrite (key_eq_iff I), ident_iff; tauto. Qed.
Lemma ident_sym a b : exact a -> exact b -> ident a b = ident b a.
Proof. intros Ha Hb. apply eq_true_iff_eq. rewrite !ident_iff; intuition. Qed.

(** ** Counting *)
Lemma count_increment a c l : exact a -> exact c -> Forall (fun kc => exact (fst kc)) l ->
  count_of I a (increment I c l) = count_of I a l + (if ident a c then 1 else 0).
Proof.
  intros Ha Hc. induction 1 as [|[k m] l Hk _ IH]; cbn [increment count_of fst] in *.
  - rewrite key_ident, ident_sym by auto. destruct (ident a c); auto.
  - destruct (key_eq I k c) eqn:E; cbn [count_of].
    + apply (key_eq_iff I) in E; auto. subst. rewrite key_ident, ident_sym by auto. destruct (ident a c); lia.
    + destruct (key_eq I k a) eqn:E2; auto. apply (key_eq_iff I) in E2; auto. subst. rewrite key_ident in E by auto. rewrite E. lia.
Qed.
Lemma increment_keys c l : exact c -> Forall (fun kc => exact (fst kc)) l -> Forall (fun kc => exact (fst kc)) (increment I c l).
Proof. intros Hc. induction 1 as [|[k m] l Hk H IH]; cbn; auto. destruct (key_eq I k c); constructor; auto. Qed.
Lemma increment_pos c l : Forall (fun kc => 1 <= snd kc) l -> Forall (fun kc : expr * nat => 1 <= snd kc) (increment I c l).
Proof. induction 1 as [|[k m] l Hk H IH]; cbn; auto. destruct (key_eq I k c); constructor; cbn in *; auto; lia. Qed.

Lemma count_visit_eq e c : count_visit I e c = record_all I (count_visit I) (children e) c.
Proof. destruct e; reflexivity. Qed.

(** The expressions visited are distinct; everything inside a visited one smaller than [k] is visited. *)
Record cinv (k : nat) (c : counter) : Prop := mk_cinv {
  ci_keys : Forall (fun kc => exact (fst kc)) (c_counts c);
  ci_pos : Forall (fun kc : expr * nat => 1 <= snd kc) (c_counts c);
  ci_vis : Forall exact (c_visited c);
  ci_nodup : NoDup (c_visited c);
  ci_closed : forall v p, In v (c_visited c) -> size v < k -> part_of p v -> In p (c_visited c)
}.
(** What a visit adds: [own a] uses of [a]. *)
Record cstep (k : nat) (top : expr -> Prop) (own : expr -> nat) (c c' : counter) : Prop := mk_cstep {
  cs_inv : cinv k c';
  cs_grow : incl (c_visited c) (c_visited c');
  cs_new : forall v, In v (c_visited c') -> In v (c_visited c) \/ size v < k /\ top v;
  cs_count : forall a, exact a -> is_boolean a = false ->
    count_of I a (c_counts c') + occurrences a (c_visited c) = count_of I a (c_counts c) + occurrences a (c_visited c') + own a
}.

Lemma visited_iff e l : exact e -> Forall exact l -> (visited I e l = true <-> In e l).
Proof.
  intros He Hl. unfold visited. rewrite existsb_exists. split.
  - intros (x & Hx & E). rewrite Forall_forall in Hl. apply (key_eq_iff I) in E; auto. now subst.
  - intros H. exists e. split; auto. now apply key_refl.
Qed.

Lemma record_step k top child c :
  (forall c1, cinv (size child) c1 -> cstep (size child) top (fun a => uses a child) c1 (count_visit I child c1) /\
     forall p, part_of p child -> In p (c_visited (count_visit I child c1))) ->
  exact child -> top child -> size child < k -> cinv k c ->
  cstep k top (fun a => if ident a child then 1 else 0) c (record_count I (count_visit I) child c) /\
  (forall p, p = child \/ part_of p child -> In p (c_visited (record_count I (count_visit I) child c))).
Proof.
  intros Hv He Ht Hk [A B D E F]. unfold record_count.
  set (c1 := if is_boolean child then c else mk_counter (increment I child (c_counts c)) (c_visited c)).
  assert (V1 : c_visited c1 = c_visited c) by (unfold c1; destruct (is_boolean child); auto).
  assert (C1 : forall a, exact a -> is_boolean a = false -> count_of I a (c_counts c1) = count_of I a (c_counts c) + (if ident a child then 1 else 0)).
  { intros a Ha Hb. unfold c1. destruct (is_boolean child) eqn:Eb.
    - destruct (ident a child) eqn:Ei; [|lia]. apply ident_iff in Ei; auto. congruence.
    - cbn. apply count_increment; auto. }
  assert (K1 : Forall (fun kc => exact (fst kc)) (c_counts c1)) by (unfold c1; destruct (is_boolean child); cbn; auto using increment_keys).
  assert (P1 : Forall (fun kc : expr * nat => 1 <= snd kc) (c_counts c1)) by (unfold c1; destruct (is_boolean child); cbn; auto using increment_pos).
  destruct (visited I child (c_visited c1)) eqn:Ev.
  - rewrite V1 in Ev. apply visited_iff in Ev; auto. split.
    + constructor; rewrite ?V1; auto.
      * constructor; rewrite ?V1; auto.
      * apply incl_refl.
      * intros a Ha Hb. rewrite (C1 a Ha Hb). lia.
    + rewrite V1. intros p [->|Hp]; auto. eapply F; eauto.
  - assert (Nv : ~ In child (c_visited c)). { intros H. apply (visited_iff child) in H; auto. rewrite V1 in Ev. congruence. }
    rewrite V1. set (c2 := mk_counter (c_counts c1) (child :: c_visited c)).
    assert (I2 : cinv (size child) c2).
    { constructor; cbn; auto; [constructor; auto|]. intros v p [<-|Hin] Hs Hp; [lia|]. right. eapply F; eauto. lia. }
    destruct (Hv c2 I2) as [[S1 S2 S3 S4] Hp]. destruct S1 as [A' B' D' E' F'].
    split.
    + constructor.
      * constructor; auto. intros v p Hin Hs Hpp. destruct (S3 _ Hin) as [Hin'|[Hlt _]].
        -- destruct Hin' as [<-|Hin']; [apply Hp; auto|]. apply S2. right. eapply F; eauto.
        -- eapply F'; eauto.
      * intros v Hin. apply S2. right. exact Hin.
      * intros v Hin. destruct (S3 _ Hin) as [[<-|Hin']|[Hlt Ht']]; auto. right. split; auto. lia.
      * intros a Ha Hb. specialize (S4 a Ha Hb). cbn [c_counts c_visited c2] in S4. rewrite (C1 a Ha Hb) in S4.
        unfold occurrences in *. cbn [map] in S4. cbn [list_sum fold_right] in S4. unfold list_sum in *. lia.
    + intros p [->|Hpp]; [apply S2; left; auto|auto].
Qed.

Lemma cstep_trans k top f g c c1 c2 : cstep k top f c c1 -> cstep k top g c1 c2 -> cstep k top (fun a => f a + g a) c c2.
Proof.
  intros [A1 B1 D1 E1] [A2 B2 D2 E2]. constructor; auto.
  - eapply incl_tran; eauto.
  - intros v Hv. destruct (D2 _ Hv); auto.
  - intros a Ha Hb. specialize (E1 a Ha Hb). specialize (E2 a Ha Hb). lia.
Qed.
Lemma cstep_ext k top f g c c1 : (forall a, f a = g a) -> cstep k top f c c1 -> cstep k top g c c1.
Proof. intros H [A B D E]. constructor; auto. intros a Ha Hb. rewrite <- H. auto. Qed.

Lemma count_visit_step root : forall e, exact e -> (e = root \/ part_of e root) -> forall c, cinv (size e) c ->
  cstep (size e) (fun v => part_of v root) (fun a => uses a e) c (count_visit I e c) /\
  forall p, part_of p e -> In p (c_visited (count_visit I e c)).
Proof.
  induction e as [e IH] using children_ind. intros He Hr c Hc. rewrite count_visit_eq.
  assert (G : forall l, incl l (children e) -> forall c, cinv (size e) c ->
    cstep (size e) (fun v => part_of v root) (fun a => List.length (filter (ident a) l)) c (record_all I (count_visit I) l c) /\
    forall x p, In x l -> p = x \/ part_of p x -> In p (c_visited (record_all I (count_visit I) l c))).
  { clear c Hc. induction l as [|x l IHl]; intros Hl c Hc; cbn [record_all].
    - split; [|intros x p []]. constructor; auto; try apply incl_refl. 
    - assert (Hx : In x (children e)) by (apply Hl; left; auto).
      pose proof (exact_children e He) as Hex. rewrite Forall_forall in Hex, IH.
      assert (Px : part_of x root). { destruct Hr as [->|Hr]; [constructor; now rewrite operands_children|eapply part_child; eauto]. }
      destruct (record_step (size e) (fun v => part_of v root) x c) as [S1 S2]; auto.
      { apply size_child; auto. }
      destruct (IHl (fun y Hy => Hl y (or_intror Hy)) _ (cs_inv _ _ _ _ _ S1)) as [T1 T2]. split.
      + eapply cstep_ext; [|eapply cstep_trans; [exact S1|exact T1]]. intros a. cbn. destruct (ident a x); cbn; lia.
      + intros y p [<-|Hy] Hp; [|eapply T2; eauto]. apply (cs_grow _ _ _ _ _ T1). auto. }
  destruct (G (children e) (incl_refl _) c Hc) as [S1 S2]. split.
  - eapply cstep_ext; [|exact S1]. intros a. cbn beta. unfold uses. rewrite (operands_children e). reflexivity.
  - intros p Hp. destruct Hp as [e Hin|x e Hin Hp']; rewrite operands_children in Hin; [apply (S2 p p); auto|apply (S2 x p); auto].
Qed.

Definition counts_of (e : expr) : list (expr * nat) := c_counts (count_visit I e (mk_counter [] [])).

Lemma occurrences_perm a l m : Permutation l m -> occurrences a l = occurrences a m.
Proof. unfold occurrences, list_sum. induction 1; cbn in *; lia. Qed.

Lemma counts_correct e D a : exact e -> distinct_parts e D -> exact a -> is_boolean a = false ->
  count_of I a (counts_of e) = occurrences a D.
Proof.
  intros He [Dn Di] Ha Hb. assert (I0 : cinv (size e) (mk_counter [] [])) by (constructor; cbn; auto using NoDup_nil; intros v p []).
  destruct (count_visit_step e e He (or_introl eq_refl) _ I0) as [[[K P X N F] _ S3 S4] Hp].
  specialize (S4 a Ha Hb). cbn [c_counts c_visited count_of] in S4. unfold counts_of. change (occurrences a []) with 0 in S4.
  assert (Pm : Permutation D (e :: c_visited (count_visit I e (mk_counter [] [])))).
  { apply NoDup_Permutation; auto.
    - constructor; auto. intros Hin. destruct (S3 _ Hin) as [[]|[Hlt _]]. lia.
    - intros x. rewrite Di. cbn [In]. split; intros [->|H]; auto.
      right. destruct (S3 _ H) as [[]|[_ H']]; auto. }
  rewrite (occurrences_perm _ _ _ Pm). unfold occurrences, list_sum in *. cbn in *. lia.
Qed.
Lemma parts_exist e : exact e -> exists D, distinct_parts e D.
Proof.
  intros He. assert (I0 : cinv (size e) (mk_counter [] [])) by (constructor; cbn; auto using NoDup_nil; intros v p []).
  destruct (count_visit_step e e He (or_introl eq_refl) _ I0) as [[[K P X N F] _ S3 S4] Hp].
  exists (e :: c_visited (count_visit I e (mk_counter [] []))). split.
  - constructor; auto. intros Hin. destruct (S3 _ Hin) as [[]|[Hlt _]]. lia.
  - intros x. cbn [In]. split; intros [->|H]; auto. right. destruct (S3 _ H) as [[]|[_ H']]; auto.
Qed.
Lemma counted_positive e a : exact e -> exact a -> counted I (counts_of e) a = true -> 1 <= count_of I a (counts_of e).
Proof.
  intros He Ha H. assert (I0 : cinv (size e) (mk_counter [] [])) by (constructor; cbn; auto using NoDup_nil; intros v p []).
  destruct (count_visit_step e e He (or_introl eq_refl) _ I0) as [[[K P X N F] _ S3 S4] Hp]. fold (counts_of e) in K, P.
  unfold counted in H. clear - H P. induction P as [|[k m] l Hk _ IH]; cbn in *; [discriminate|]. destruct (key_eq I k a); auto.
Qed.
Lemma occurrences_part a D e : distinct_parts e D -> exact e -> exact a -> 1 <= occurrences a D -> part_of a e.
Proof.
  intros [_ Di] He Ha H.
  assert (G : forall l, 1 <= occurrences a l -> exists p, In p l /\ 1 <= uses a p).
  { clear. induction l as [|p l IH]; unfold occurrences, list_sum in *; cbn; [lia|]. intros H.
    destruct (uses a p) as [|m] eqn:E; [|exists p; split; auto; lia]. destruct IH as (q & Hq & Hu); [lia|]. exists q. auto. }
  destruct (G D H) as (p & Hp & Hu). unfold uses in Hu. destruct (filter (ident a) (operands p)) as [|x t] eqn:E; [cbn in Hu; lia|].
  assert (Hx : In x (filter (ident a) (operands p))) by (rewrite E; left; auto). apply filter_In in Hx as [Hx Hi].
  apply Di in Hp. assert (Ep : exact p) by (destruct Hp as [->|Hp]; auto; apply (exact_part p e); auto).
  assert (Ex : exact x) by (eapply exact_part; [exact Ep|constructor; auto]). apply ident_iff in Hi; auto. subst x.
  destruct Hp as [->|Hp]; [constructor; auto|eapply part_trans; [constructor; eauto|exact Hp]].
Qed.
Lemma counted_iff e a : exact e -> exact a -> is_boolean a = false -> (counted I (counts_of e) a = true -> part_of a e).
Proof.
  intros He Ha Hb H. destruct (parts_exist e He) as [D HD]. eapply occurrences_part; eauto.
  rewrite <- (counts_correct e D a); auto. now apply counted_positive.
Qed.
End Keys.
