From Coq Require Import List Arith NArith Ndigits Bool Lia Permutation.
From Verif Require Import Outcome FactorModel FactorSpec.
Import ListNotations.
Open Scope outcome_scope.
Open Scope nat_scope.

Ltac conj := repeat match goal with |- _ /\ _ => split end.

(** * Bits *)
Lemma bit_N b i : bit b i = N.testbit b (N.of_nat i).
Proof. unfold bit. now rewrite Ntestbit_Nbit. Qed.
Lemma bit_land a b i : bit (N.land a b) i = bit a i && bit b i.
Proof. apply Nand_semantics. Qed.
Lemma bit_ldiff a b i : bit (N.ldiff a b) i = bit a i && negb (bit b i).
Proof. apply Ndiff_semantics. Qed.
Lemma bit_set b i j : bit (set_bit b i) j = (i =? j) || bit b j.
Proof.
  unfold set_bit. rewrite !bit_N, N.setbit_eqb. f_equal.
  destruct (N.eqb_spec (N.of_nat i) (N.of_nat j)), (Nat.eqb_spec i j); lia || reflexivity.
Qed.
Lemma bit_clear b i j : bit (N.clearbit b (N.of_nat i)) j = bit b j && negb (i =? j).
Proof.
  rewrite !bit_N, N.clearbit_eqb. f_equal. f_equal.
  destruct (N.eqb_spec (N.of_nat i) (N.of_nat j)), (Nat.eqb_spec i j); lia || reflexivity.
Qed.
Lemma bit_zero i : bit 0%N i = false.
Proof. reflexivity. Qed.
Lemma bits_ext a b : (forall i, bit a i = bit b i) -> a = b.
Proof. intros H. apply Nbit_faithful. intros i. apply H. Qed.
Lemma nonzero_bit b : b <> 0%N -> exists i, bit b i = true.
Proof.
  intros H. destruct b as [|p]; [congruence|]. exists (N.to_nat (N.log2 (N.pos p))).
  rewrite bit_N, N2Nat.id. now apply N.bit_log2.
Qed.
Lemma fold_set_bit l : forall b j, bit (fold_left set_bit l b) j = existsb (Nat.eqb j) l || bit b j.
Proof.
  induction l as [|i t IH]; intros b j; [reflexivity|]. cbn [fold_left existsb]. rewrite IH, bit_set, (Nat.eqb_sym i j).
  destruct (j =? i), (existsb (Nat.eqb j) t); reflexivity.
Qed.
Lemma existsb_seq a n j : existsb (Nat.eqb j) (seq a n) = (a <=? j) && (j <? a + n).
Proof.
  apply Bool.eq_iff_eq_true. rewrite existsb_exists, Bool.andb_true_iff, Nat.leb_le, Nat.ltb_lt. split.
  - intros (x & Hx & E). apply Nat.eqb_eq in E. subst x. apply in_seq in Hx. lia.
  - intros H. exists j. split; [apply in_seq; lia|apply Nat.eqb_refl].
Qed.
Lemma bit_fill n j : bit (fill_bits n) j = (j <? n).
Proof. unfold fill_bits. rewrite fold_set_bit, existsb_seq. cbn. now rewrite Bool.orb_false_r. Qed.

Lemma count_members b : count b = length (members b).
Proof. unfold count, members, MAX_VARS_OR_TERMS. reflexivity. Qed.
Lemma members_two b i j : i < j < 64 -> bit b i = true -> bit b j = true -> 2 <= length (members b).
Proof.
  intros H Hi Hj. unfold members.
  assert (P : seq 0 64 = seq 0 j ++ seq j (64 - j)).
  { rewrite <- seq_app. f_equal. lia. }
  rewrite P, filter_app, app_length.
  assert (Hpos : forall l x, In x l -> bit b x = true -> 1 <= length (filter (bit b) l)).
  { intros l x Hx Hb. assert (In x (filter (bit b) l)) as Q by (apply filter_In; auto). destruct (filter _ l); [destruct Q|cbn; lia]. }
  specialize (Hpos (seq 0 j) i) as H1. specialize (Hpos (seq j (64 - j)) j) as H2. rewrite in_seq in *.
  specialize (H1 ltac:(lia) Hi). specialize (H2 ltac:(lia) Hj). lia.
Qed.

#[local] Opaque count members.

(** * One step *)
Lemma find_fold t (st : bits) : forall l vs v,
  bit (fold_left (fun vs i => if bit st i then N.land vs (get_term t i) else vs) l vs) v =
  bit vs v && forallb (fun i => implb (bit st i) (bit (get_term t i) v)) l.
Proof.
  induction l as [|i l IH]; intros vs v; cbn [fold_left forallb]; [now rewrite Bool.andb_true_r|].
  rewrite IH. destruct (bit st i); cbn [implb]; [|reflexivity]. rewrite bit_land. now rewrite Bool.andb_assoc.
Qed.

Record cand (t : table) (rv rt : bits) (s : step) : Prop := {
  ca_vars : fst s <> 0%N;
  ca_terms : 2 <= length (members (snd s));
  ca_rv : forall v, bit (fst s) v = true -> bit rv v = true;
  ca_rt : forall i, bit (snd s) i = true -> bit rt i = true;
  ca_div : forall v i, i < length (terms_to_vars t) -> bit (fst s) v = true -> bit (snd s) i = true ->
      bit (get_term t i) v = true
}.

Lemma find_jointly_cand v t rt rv fv ft :
  find_jointly v t rt rv = (fv, ft) -> none fv = false -> cand t rv rt (fv, ft).
Proof.
  unfold find_jointly. destruct (count (N.land rt (get_var t v)) <=? 1) eqn:E.
  - intros H Hn. injection H as <- <-. discriminate.
  - intros H Hn. injection H as <- <-. apply Nat.leb_gt in E. rewrite count_members in E. split; cbn [fst snd].
    + intros Z. rewrite Z in Hn. discriminate.
    + lia.
    + intros w Hw. rewrite find_fold in Hw. now apply Bool.andb_true_iff in Hw.
    + intros i Hi. rewrite bit_land in Hi. now apply Bool.andb_true_iff in Hi.
    + intros w i Hi Hw Hs. rewrite find_fold in Hw. apply Bool.andb_true_iff in Hw as [_ Hw].
      rewrite forallb_forall in Hw. specialize (Hw i). rewrite in_seq in Hw. rewrite Hs in Hw. cbn in Hw.
      apply Hw. lia.
Qed.

Lemma insert_ranked_in x l y : In y (insert_ranked x l) -> y = x \/ In y l.
Proof.
  induction l as [|h t IH]; cbn [insert_ranked].
  - intros [->|[]]. now left.
  - destruct (ss_score x <? ss_score h).
    + intros [->|H]; [right; now left|]. destruct (IH H); [now left|right; now right].
    + destruct (N.eqb _ _); [now right|]. intros [->|H]; [now left|now right].
Qed.
Lemma insert_ranked_nonempty x l : insert_ranked x l <> [].
Proof.
  destruct l as [|h t]; cbn [insert_ranked]; [discriminate|].
  destruct (ss_score x <? ss_score h); [discriminate|]. destruct (N.eqb _ _); discriminate.
Qed.
Lemma in_firstn {A} n (l : list A) x : In x (firstn n l) -> In x l.
Proof. revert n; induction l as [|y t IH]; intros [|n]; cbn; try tauto. intros [->|H]; [now left|right; eauto]. Qed.

Lemma rank_steps_cand t rv rt bf s : In s (rank_steps t rv rt bf) -> cand t rv rt (ss_step s).
Proof.
  unfold rank_steps.
  assert (H : forall l acc, (forall s, In s acc -> cand t rv rt (ss_step s)) ->
      forall s, In s (fold_left (rank_step t rv rt bf) l acc) -> cand t rv rt (ss_step s)).
  { induction l as [|v l IH]; intros acc Ha; [exact Ha|]. cbn [fold_left]. apply IH. intros s0 Hs0.
    unfold rank_step in Hs0. destruct (bit rv v); [|now apply Ha].
    destruct (find_jointly v t rt rv) as [fv ft] eqn:E. destruct (none fv) eqn:N; [now apply Ha|].
    apply in_firstn, insert_ranked_in in Hs0 as [->|Hs0]; [|now apply Ha].
    cbn [ss_step]. eapply find_jointly_cand; eassumption. }
  apply H. intros s0 [].
Qed.

Lemma rank_steps_nonempty t rv rt bf v :
  bf <> 0 -> v < length (vars_to_terms t) -> bit rv v = true ->
  2 <= count (N.land rt (get_var t v)) ->
  (forall i, i < length (terms_to_vars t) -> bit (get_var t v) i = bit (get_term t i) v) ->
  rank_steps t rv rt bf <> [].
Proof.
  intros Hbf Hv Hr Hc Ht. unfold rank_steps.
  assert (Mono : forall l acc, acc <> [] -> fold_left (rank_step t rv rt bf) l acc <> []).
  { induction l as [|w l IH]; intros acc Ha; [exact Ha|]. cbn [fold_left]. apply IH.
    unfold rank_step. destruct (bit rv w); [|exact Ha]. destruct (find_jointly w t rt rv) as [fv ft].
    destruct (none fv); [exact Ha|]. pose proof (insert_ranked_nonempty (mks w (count fv * (count ft - 1)) (fv, ft)) acc).
    destruct (insert_ranked _ acc); [congruence|]. destruct bf; [congruence|discriminate]. }
  assert (Hin : In v (seq 0 (length (vars_to_terms t)))) by (apply in_seq; lia).
  apply in_split in Hin as (l1 & l2 & ->). rewrite fold_left_app. cbn [fold_left]. apply Mono.
  unfold rank_step at 1. rewrite Hr. destruct (find_jointly v t rt rv) as [fv ft] eqn:E.
  assert (none fv = false) as ->.
  { unfold find_jointly in E. destruct (Nat.leb_spec (count (N.land rt (get_var t v))) 1); [lia|].
    injection E as <- <-. unfold none. apply N.eqb_neq. intros Z.
    assert (X : bit 0%N v = true).
    { rewrite <- Z, find_fold, Hr. cbn [andb]. apply forallb_forall. intros i Hi. apply in_seq in Hi.
      rewrite bit_land. rewrite Ht by lia. destruct (bit (get_term t i) v), (bit rt i); reflexivity. }
    discriminate. }
  pose proof (insert_ranked_nonempty (mks v (count fv * (count ft - 1)) (fv, ft))
    (fold_left (rank_step t rv rt bf) l1 [])) as N.
  destruct (insert_ranked _ _); [congruence|]. destruct bf; [congruence|discriminate].
Qed.

(** * Pushing a step *)
Lemma insert_step_perm x l : Permutation (insert_step x l) (x :: l).
Proof.
  induction l as [|h t IH]; cbn [insert_step]; [reflexivity|]. destruct (step_lt h x); [|reflexivity].
  rewrite IH. apply perm_swap.
Qed.
Lemma disjoint_perm l l' : Permutation l l' -> disjoint_steps l -> disjoint_steps l'.
Proof.
  induction 1 as [|x l l' P IH|x y l|l1 l2 l3 P1 IH1 P2 IH2]; intros H.
  - exact I.
  - destruct H as [H1 H2]. split; [|now apply IH]. intros s Hs. apply H1.
    apply (Permutation_in s (Permutation_sym P) Hs).
  - destruct H as [H1 [H2 H3]]. cbn. split; [|split]; try assumption.
    + intros s [<-|Hs] i Hi; [|now apply (H2 s)].
      destruct (bit (snd y) i) eqn:E; [|reflexivity]. rewrite (H1 x (or_introl eq_refl) i E) in Hi. discriminate.
    + intros s Hs. apply H1. now right.
  - auto.
Qed.
Lemma list_sum_perm l l' : Permutation l l' -> list_sum l = list_sum l'.
Proof. unfold list_sum. induction 1; cbn [fold_right]; lia. Qed.

(** What the search knows about a factorization under construction. *)
Record partial (terms : list bits) (nv : nat) (f : factorization) : Prop := {
  pa_steps : forall s, In s (f_steps f) -> step_ok terms nv s;
  pa_disjoint : disjoint_steps (f_steps f);
  pa_score : f_score f = list_sum (map saved (f_steps f))
}.

Lemma f_push_partial terms nv f rt s :
  partial terms nv f -> step_ok terms nv s ->
  (forall i, bit (snd s) i = true -> bit rt i = true) ->
  (forall s' i, In s' (f_steps f) -> bit rt i = true -> bit (snd s') i = false) ->
  partial terms nv (f_push f (fst s) (snd s)) /\
  length (f_steps (f_push f (fst s) (snd s))) = S (length (f_steps f)) /\
  (forall s' i, In s' (f_steps (f_push f (fst s) (snd s))) -> bit (N.ldiff rt (snd s)) i = true -> bit (snd s') i = false).
Proof.
  intros [P1 P2 P3] Hs Hrt Hd. unfold f_push. cbn [f_steps f_score].
  assert (Ps : Permutation (insert_step (fst s, snd s) (f_steps f)) (s :: f_steps f)).
  { destruct s. apply insert_step_perm. }
  split; [split|split]; cbn [f_steps f_score].
  - intros s' Hs'. apply (Permutation_in s' Ps) in Hs' as [<-|Hs']; [assumption|now apply P1].
  - apply (disjoint_perm _ _ (Permutation_sym Ps)). split; [|assumption].
    intros s' Hs' i Hi. apply (Hd s' i Hs'). now apply Hrt.
  - rewrite (list_sum_perm _ _ (Permutation_map saved Ps)). cbn [map]. 
    change (list_sum (saved s :: map saved (f_steps f))) with (saved s + list_sum (map saved (f_steps f))).
    assert (Es : saved s = count (fst s) * (count (snd s) - 1)) by (unfold saved; now rewrite !count_members).
    rewrite P3, Es. apply Nat.add_comm.
  - apply (Permutation_length Ps).
  - intros s' i Hs' Hi. rewrite bit_ldiff in Hi. apply Bool.andb_true_iff in Hi as [H1 H2].
    apply (Permutation_in s' Ps) in Hs' as [<-|Hs']; [now apply Bool.negb_true_iff|now apply (Hd s')].
Qed.

(** * The search *)
Section Search.
  Variables (t : table) (nv bf : nat).
  Let terms := terms_to_vars t.

  Record state_ok (rv rt : bits) (parent : factorization) : Prop := {
    st_rv : forall v, bit rv v = true -> v < nv;
    st_rt : forall i, bit rt i = true -> i < length terms;
    st_part : partial terms nv parent;
    st_disj : forall s i, In s (f_steps parent) -> bit rt i = true -> bit (snd s) i = false
  }.
  Definition outs_ok (outs : list factorization) : Prop := forall f, In f outs -> factorization_ok terms nv f.
  (** Outputs exist already, or nothing as long as the next step was visited. *)
  Definition fresh (parent : factorization) (st : search_state) : Prop :=
    snd st <> [] \/ forall x, In x (fst st) -> length x <= length (f_steps parent).

  Lemma cand_step_ok rv rt parent s : state_ok rv rt parent -> cand t rv rt s -> step_ok terms nv s.
  Proof.
    intros [S1 S2 S3 S4] [C1 C2 C3 C4 C5]. split; try assumption.
    - intros v Hv. now apply S1, C3.
    - intros i Hi. now apply S2, C4.
    - intros v i Hv Hi. apply C5; [|assumption|assumption]. now apply S2, C4.
  Qed.

  Lemma steps_eqb_length a b : steps_eqb a b = true -> length a = length b.
  Proof.
    revert b; induction a as [|x s IH]; intros [|y u]; cbn; try discriminate; [reflexivity|].
    intros H. apply Bool.andb_true_iff in H as [_ H]. f_equal. now apply IH.
  Qed.

  Lemma recurse_ok : forall fuel s rv rt parent st,
    state_ok rv rt parent -> cand t rv rt (ss_step s) -> outs_ok (snd st) ->
    length (f_steps parent) < 8 -> 9 <= fuel + length (f_steps parent) ->
    exists st', recurse fuel t bf s rv rt parent st = Ok st' /\ outs_ok (snd st') /\
      (fresh parent st -> snd st' <> []) /\ (snd st <> [] -> snd st' <> []).
  Proof.
    induction fuel as [|fuel IH]; intros s rv rt parent [visited outputs] S C O L F; [lia|].
    cbn [recurse]. destruct (ss_step s) as [fv ft] eqn:Es. cbn [fst snd] in *.
    pose proof (cand_step_ok _ _ _ _ S C) as Hs. destruct S as [S1 S2 S3 S4].
    destruct (f_push_partial terms nv parent rt (fv, ft) S3 Hs (ca_rt _ _ _ _ C) S4) as (Q1 & Q2 & Q3).
    cbn [fst snd] in *. set (result := f_push parent fv ft) in *.
    destruct (existsb (steps_eqb (f_steps result)) visited) eqn:V.
    { eexists. split; [reflexivity|]. cbn [snd]. conj; [assumption| |auto].
      intros [Hf|Hf]; [exact Hf|]. exfalso. apply existsb_exists in V as (x & Hx & Ex).
      apply steps_eqb_length in Ex. specialize (Hf x Hx). lia. }
    assert (OK : factorization_ok terms nv result).
    { destruct Q1. split; try assumption; [|lia]. intros Z. rewrite Z in Q2. discriminate. }
    assert (Leaf : outs_ok (outputs ++ [result])).
    { intros f Hf. apply in_app_or in Hf as [Hf|[<-|[]]]; [now apply O|assumption]. }
    destruct (none _ || _) eqn:Lf.
    { eexists. split; [reflexivity|]. cbn [snd]. conj; [assumption| |]; intros _ Z; symmetry in Z; now apply app_cons_not_nil in Z. }
    apply Bool.orb_false_iff in Lf as [_ Lf]. apply Nat.eqb_neq in Lf. unfold MAX_FACTORIZATION_STEPS in Lf.
    set (rv' := N.clearbit rv _). set (rt' := N.ldiff rt ft) in *.
    destruct (rank_steps t rv' rt' bf) as [|r0 ranked] eqn:R.
    { eexists. split; [reflexivity|]. cbn [snd]. conj; [assumption| |]; intros _ Z; symmetry in Z; now apply app_cons_not_nil in Z. }
    assert (S' : state_ok rv' rt' result).
    { split; try assumption.
      - intros v Hv. apply S1. unfold rv' in Hv. rewrite bit_clear in Hv. now apply Bool.andb_true_iff in Hv.
      - intros i Hi. apply S2. unfold rt' in Hi. rewrite bit_ldiff in Hi. now apply Bool.andb_true_iff in Hi. }
    assert (Cs : forall x, In x (r0 :: ranked) -> cand t rv' rt' (ss_step x)).
    { intros x Hx. rewrite <- R in Hx. eapply rank_steps_cand; eassumption. }
    assert (Each : forall l st, (forall x, In x l -> cand t rv' rt' (ss_step x)) -> outs_ok (snd st) ->
      exists st', (fix each l st := match l with
                                | [] => Ok st
                                | x :: l' => let* st := recurse fuel t bf x rv' rt' result st in each l' st
                                end) l st = Ok st' /\ outs_ok (snd st') /\
        (l <> [] -> fresh result st -> snd st' <> []) /\ (snd st <> [] -> snd st' <> [])).
    { induction l as [|x l IHl]; intros st Hl Ho.
      - exists st. conj; auto; congruence.
      - destruct (IH x rv' rt' result st S' (Hl x (or_introl eq_refl)) Ho) as (st1 & E1 & O1 & F1 & G1); [lia|lia|].
        rewrite E1. cbn [bind].
        destruct (IHl st1) as (st2 & E2 & O2 & F2 & G2); [intros y Hy; apply Hl; now right|assumption|].
        exists st2. conj; auto. }
    destruct (Each (r0 :: ranked) (f_steps result :: visited, outputs) Cs O) as (st' & E' & O' & F' & G').
    exists st'. conj; auto.
    intros [Hf|Hf].
    - now apply G'.
    - apply F'; [discriminate|]. right. intros x [<-|Hx]; [lia|]. specialize (Hf x Hx). cbn [fst] in Hf. lia.
  Qed.
End Search.

(** * Ranking *)
Lemma insert_fact_perm x l : Permutation (insert_fact x l) (x :: l).
Proof.
  induction l as [|h t IH]; cbn [insert_fact]; [reflexivity|].
  destruct (_ || _); [|reflexivity]. rewrite IH. apply perm_swap.
Qed.
Lemma sort_facts_perm l : Permutation (sort_facts l) l.
Proof.
  unfold sort_facts. assert (H : forall acc, Permutation (fold_left (fun acc x => insert_fact x acc) l acc) (acc ++ l)).
  { induction l as [|x t IH]; intros acc; cbn [fold_left]; [now rewrite app_nil_r|].
    rewrite IH, insert_fact_perm. cbn. apply Permutation_middle. }
  apply (H []).
Qed.

Lemma better_spec a b : better a b = true <->
  f_score b < f_score a \/ (f_score a = f_score b /\ length (f_steps a) < length (f_steps b)).
Proof.
  unfold better. destruct (Nat.ltb_spec (f_score b) (f_score a)); [split; auto|].
  destruct (Nat.ltb_spec (f_score a) (f_score b)).
  - split; [discriminate|]. intros [|[]]; lia.
  - rewrite Nat.ltb_lt. split; [intros; right; split; lia|]. intros [|[]]; lia.
Qed.
Lemma better_false a b : better a b = false <->
  ~ (f_score b < f_score a \/ (f_score a = f_score b /\ length (f_steps a) < length (f_steps b))).
Proof. rewrite <- better_spec. destruct (better a b); split; congruence. Qed.

(** The front is a best one. *)
Definition best_first (l : list factorization) : Prop :=
  forall a b l1 l2, l = l1 ++ a :: l2 -> In b l2 -> better b a = false.

Lemma best_first_cons a l : best_first (a :: l) <-> (forall b, In b l -> better b a = false) /\ best_first l.
Proof.
  split.
  - intros H. split.
    + intros b Hb. now apply (H a b [] l).
    + intros x b l1 l2 -> Hb. now apply (H x b (a :: l1) l2).
  - intros [H1 H2] x b l1 l2 E Hb. destruct l1 as [|y l1]; injection E as -> ->; [now apply H1|].
    now apply (H2 x b l1 l2).
Qed.
Lemma insert_fact_best x l : best_first l -> best_first (insert_fact x l).
Proof.
  induction l as [|h t IH]; intros H; cbn [insert_fact].
  - apply best_first_cons. split; [intros b []|exact H].
  - apply best_first_cons in H as [H1 H2].
    destruct (better h x || negb (better x h)) eqn:E.
    + apply best_first_cons. split; [|now apply IH]. intros b Hb.
      apply (Permutation_in b (insert_fact_perm x t)) in Hb as [<-|Hb]; [|now apply H1].
      apply Bool.orb_true_iff in E as [E|E]; [|now apply Bool.negb_true_iff].
      apply better_spec in E. apply better_false. lia.
    + apply Bool.orb_false_iff in E as [E1 E2]. apply Bool.negb_false_iff in E2.
      apply best_first_cons. split; [|apply best_first_cons; now split].
      intros b [<-|Hb]; [assumption|]. specialize (H1 b Hb).
      apply better_spec in E2. apply better_false in H1. apply better_false. lia.
Qed.
Lemma sort_facts_best l : best_first (sort_facts l).
Proof.
  unfold sort_facts. assert (H : forall acc, best_first acc -> best_first (fold_left (fun acc x => insert_fact x acc) l acc)).
  { induction l as [|x t IH]; intros acc Ha; [exact Ha|]. cbn [fold_left]. apply IH. now apply insert_fact_best. }
  apply H. intros a b l1 l2 E. destruct l1; discriminate.
Qed.

(** * The whole *)
Lemma transpose_length terms nv : length (transpose terms nv) = nv.
Proof. unfold transpose. now rewrite map_length, seq_length. Qed.
Lemma transpose_bit terms nv v i : v < nv ->
  bit (nth v (transpose terms nv) 0%N) i = (i <? length terms) && bit (nth i terms 0%N) v.
Proof.
  intros Hv. unfold transpose.
  set (f := fun v => fold_left (fun m i => if bit (nth i terms 0%N) v then set_bit m i else m) (seq 0 (length terms)) 0%N).
  rewrite (nth_indep _ 0%N (f 0)) by (now rewrite map_length, seq_length).
  rewrite map_nth, seq_nth by assumption. cbn [plus]. unfold f.
  assert (H : forall l m, bit (fold_left (fun m i => if bit (nth i terms 0%N) v then set_bit m i else m) l m) i =
      (existsb (Nat.eqb i) l && bit (nth i terms 0%N) v) || bit m i).
  { induction l as [|j l IH]; intros m; [reflexivity|]. cbn [fold_left existsb]. rewrite IH.
    destruct (Nat.eqb_spec i j) as [->|N].
    - destruct (bit (nth j terms 0%N) v) eqn:E; [rewrite bit_set, Nat.eqb_refl|]; cbn;
        rewrite ?Bool.andb_true_r, ?Bool.andb_false_r; cbn; try reflexivity. destruct (existsb _ _); reflexivity.
    - cbn [orb]. destruct (bit (nth j terms 0%N) v); [|reflexivity]. rewrite bit_set.
      destruct (Nat.eqb_spec j i); [congruence|reflexivity]. }
  rewrite H, existsb_seq, bit_zero, Bool.orb_false_r. reflexivity.
Qed.

Theorem compute_ranked_spec terms nv bf :
  nv <= 64 -> length terms <= 64 ->
  exists facs, compute_ranked terms nv bf = Ok facs /\
    (forall f, In f facs -> factorization_ok terms nv f) /\
    (forall f0 rest f, facs = f0 :: rest -> In f rest -> better f f0 = false) /\
    (bf <> 0 -> factorable terms nv -> facs <> []).
Proof.
  intros Hv Ht. unfold compute_ranked. unfold MAX_VARS_OR_TERMS.
  rewrite (proj2 (Nat.leb_le nv 64) Hv), (proj2 (Nat.leb_le (length terms) 64) Ht). cbn [andb].
  destruct ((length terms =? 0) || (nv =? 0)) eqn:Z.
  { exists []. conj; [reflexivity|intros f []|discriminate|].
    intros _ (v & i & j & H1 & H2 & _). apply Bool.orb_true_iff in Z as [Z|Z]; apply Nat.eqb_eq in Z; lia. }
  set (t := mkt (transpose terms nv) terms).
  set (rv := fill_bits nv). set (rt := fill_bits (length terms)).
  assert (S : state_ok t nv rv rt f_empty).
  { split.
    - intros v. unfold rv. rewrite bit_fill. apply Nat.ltb_lt.
    - intros v. unfold rt. rewrite bit_fill. apply Nat.ltb_lt.
    - split; [intros s []|exact I|reflexivity].
    - intros s i []. }
  assert (Each : forall l st, (forall x, In x l -> cand t rv rt (ss_step x)) -> outs_ok t nv (snd st) ->
      exists st', (fix each l st := match l with
                                | [] => Ok st
                                | x :: l' => let* st := recurse (Datatypes.S MAX_FACTORIZATION_STEPS) t bf x rv rt f_empty st in each l' st
                                end) l st = Ok st' /\ outs_ok t nv (snd st') /\
        (l <> [] -> fresh f_empty st -> snd st' <> []) /\ (snd st <> [] -> snd st' <> [])).
  { induction l as [|x l IHl]; intros st Hl Ho.
    - exists st. conj; auto; congruence.
    - destruct (recurse_ok t nv bf (Datatypes.S MAX_FACTORIZATION_STEPS) x rv rt f_empty st S (Hl x (or_introl eq_refl)) Ho)
        as (st1 & E1 & O1 & F1 & G1); [cbn; lia|unfold MAX_FACTORIZATION_STEPS; cbn; lia|].
      rewrite E1. cbn [bind].
      destruct (IHl st1) as (st2 & E2 & O2 & F2 & G2); [intros y Hy; apply Hl; now right|assumption|].
      exists st2. conj; auto. }
  destruct (Each (rank_steps t rv rt bf) ([], [])) as (st & E & O & F & _).
  { intros x Hx. eapply rank_steps_cand; eassumption. }
  { intros f []. }
  rewrite E. cbn [bind]. exists (sort_facts (snd st)). conj.
  - reflexivity.
  - intros f Hf. apply O. apply (Permutation_in f (sort_facts_perm _) Hf).
  - intros f0 rest f Ef Hf. apply (sort_facts_best (snd st) f0 f [] rest Ef Hf).
  - intros Hbf (v & i & j & H1 & H2 & H3 & H4).
    assert (snd st <> []).
    { apply F; [|right; intros x []]. apply rank_steps_nonempty with (v := v); try assumption.
      - cbn [vars_to_terms t]. now rewrite transpose_length.
      - unfold rv. rewrite bit_fill. now apply Nat.ltb_lt.
      - rewrite count_members. apply members_two with (i := i) (j := j); [lia| |];
          rewrite bit_land; unfold rt; rewrite bit_fill; unfold get_var; cbn [vars_to_terms t];
          rewrite transpose_bit by assumption; rewrite ?H3, ?H4.
        + assert (i < length terms) as X by lia. apply Nat.ltb_lt in X. now rewrite X.
        + assert (j < length terms) as X by lia. apply Nat.ltb_lt in X. now rewrite X.
      - intros k Hk. unfold get_var, get_term. cbn [vars_to_terms terms_to_vars t] in *.
        rewrite transpose_bit by assumption. apply Nat.ltb_lt in Hk. now rewrite Hk. }
    intros Zs. apply H. apply Permutation_nil. rewrite <- Zs. apply sort_facts_perm.
Qed.
