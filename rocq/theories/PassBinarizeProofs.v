From Coq Require Import String List Arith NArith ZArith Bool Ring Ring_theory Permutation Sorted Lia Wf_nat.
From Verif Require Import Outcome RangesModel IrModel IrSpec IrProofs IrPassProofs.
From Verif Require Import FactorModel PassModel PassProofs PassFactorProofs.
Import ListNotations.
Open Scope outcome_scope.
Open Scope nat_scope.

Definition the_op (mul : bool) : op := if mul then OMul else OAdd.
Lemma the_op_comm mul : commutative (the_op mul) = true.
Proof. now destruct mul. Qed.
Lemma right_op_iff mul o : right_op mul o = true <-> o = the_op mul.
Proof. destruct mul, o; cbn; split; congruence. Qed.

(** * Runs of equal operands *)
Lemma runs_in l : forall x n, In (x, n) (runs l) -> In x l.
Proof.
  induction l as [|y t IH]; intros x n H; [destruct H|]. cbn [runs] in H. destruct (runs t) as [|[z k] r] eqn:E.
  - destruct H as [H|[]]. injection H as <- _. now left.
  - destruct (Nat.eqb_spec y z) as [->|N].
    + destruct H as [H|H]; [injection H as <- _; now left|]. right. apply (IH x n). now right.
    + destruct H as [H|H]; [injection H as <- _; now left|]. right. now apply (IH x n).
Qed.
Lemma runs_head l x t : l = x :: t -> exists n r, runs l = (x, n) :: r.
Proof.
  intros ->. cbn [runs]. destruct (runs t) as [|[z k] r]; [eauto|]. destruct (Nat.eqb_spec x z) as [->|]; eauto.
Qed.
Lemma runs_nodup l : StronglySorted le l -> NoDup (map fst (runs l)).
Proof.
  induction 1 as [|x t S IH F]; [constructor|]. cbn [runs]. destruct (runs t) as [|[z k] r] eqn:E.
  - cbn. constructor; [intros []|constructor].
  - destruct (Nat.eqb_spec x z) as [->|N]; [exact IH|]. cbn [map fst] in *. constructor; [|assumption].
    destruct t as [|y t']; [discriminate|]. destruct (runs_head (y :: t') y t' eq_refl) as (n & r' & E'). rewrite E' in E. injection E as <- <- <-.
    intros [H|H]; [congruence|]. apply in_map_iff in H as ((w, j) & Ew & H). cbn in Ew. subst w.
    assert (Hx : In x (y :: t')) by (apply (runs_in _ x j); rewrite E'; now right).
    rewrite Forall_forall in F. inversion S as [|? ? S' F']; subst. rewrite Forall_forall in F'.
    destruct Hx as [->|Hx]; [congruence|]. specialize (F y (or_introl eq_refl)). specialize (F' x Hx). lia.
Qed.

(** * The table of pairs *)
Section Table.
  Variable Q : pair -> name -> Prop.
  Definition table_ok (t : ptable) : Prop := forall p es, In (p, es) t -> es <> [] /\ forall v n, In (v, n) es -> Q p v.
  Lemma add_entry_ok t p v n : table_ok t -> Q p v -> table_ok (add_entry t p (v, n)).
  Proof.
    intros H Hq. induction t as [|[q es] t IH]; cbn [add_entry].
    - intros p' es' [E|[]]. injection E as <- <-. split; [discriminate|]. intros w m [E|[]]. injection E as <- _. assumption.
    - unfold pair_eqb. destruct (Nat.eqb_spec (fst q) (fst p)) as [E1|], (Nat.eqb_spec (snd q) (snd p)) as [E2|]; cbn [andb].
      1: { assert (q = p) as -> by (destruct q, p; cbn in *; congruence).
           intros p' es' [E|Hin]; [|apply (H p' es'); now right]. injection E as <- <-.
           destruct (H p es (or_introl eq_refl)) as [_ He]. split; [intros E; apply app_eq_nil in E; destruct E; discriminate|].
           intros w m Hw. apply in_app_or in Hw as [Hw|[E|[]]]; [eapply He; eassumption|]. injection E as <- _. assumption. }
      all: intros p' es' [E|Hin]; [injection E as <- <-; apply (H q es); now left|apply IH; [|assumption]; intros p2 es2 H2; apply (H p2 es2); now right].
  Qed.
End Table.

Lemma make_pair_cases a c : make_pair a c = (a, c) \/ make_pair a c = (c, a).
Proof. unfold make_pair. destruct (a <? c); tauto. Qed.

Lemma pairs_with_ok (Q : pair -> name -> Prop) v a na : forall rest t,
  table_ok Q t -> ~ In a (map fst rest) -> (forall c n, In (c, n) rest -> Q (make_pair a c) v) ->
  exists t', pairs_with v a na rest t = Ok t' /\ table_ok Q t'.
Proof.
  induction rest as [|[c nc] rest IH]; intros t Ht Na Hq; cbn [pairs_with].
  - now exists t.
  - destruct (Nat.eqb_spec a c) as [->|N]; [exfalso; apply Na; now left|]. apply IH.
    + apply add_entry_ok; [assumption|]. apply (Hq c nc). now left.
    + intros H. apply Na. now right.
    + intros d n Hd. apply (Hq d n). now right.
Qed.
Lemma pairs_of_ok (Q : pair -> name -> Prop) v : forall ms t,
  table_ok Q t -> NoDup (map fst ms) -> (forall a n c m, In (a, n) ms -> In (c, m) ms -> Q (make_pair a c) v) ->
  exists t', pairs_of v ms t = Ok t' /\ table_ok Q t'.
Proof.
  induction ms as [|[a na] ms IH]; intros t Ht ND Hq; cbn [pairs_of].
  - now exists t.
  - cbn [map fst] in ND. inversion ND as [|? ? Na ND']; subst.
    assert (Ht1 : table_ok Q (if 1 <? na then add_entry t (make_pair a a) (v, na / 2) else t)).
    { destruct (1 <? na); [|assumption]. apply add_entry_ok; [assumption|]. apply (Hq a na a na); now left. }
    destruct (pairs_with_ok Q v a na ms _ Ht1 Na) as (t2 & -> & Ht2).
    { intros c n Hc. apply (Hq a na c n); [now left|now right]. }
    cbn [bind]. apply IH; [assumption|assumption|]. intros x n y m Hx Hy. apply (Hq x n y m); now right.
Qed.

(** What an entry of the table says about the graph it was made from. *)
Definition pair_of (g : graph) (mul : bool) (active ops : list name) (p : pair) (v : name) : Prop :=
  In v ops /\ op_of g v = the_op mul /\ In v active /\ In (fst p) (args g v) /\ In (snd p) (args g v).

Lemma count_pairs_ok g mul active ops :
  (forall v, In v ops -> commutative (op_of g v) = true -> sorted_names (args g v)) ->
  exists t, count_pairs g mul active ops = Ok t /\ table_ok (pair_of g mul active ops) t.
Proof.
  intros Hs. unfold count_pairs.
  assert (G : forall vs t, incl vs ops -> table_ok (pair_of g mul active ops) t ->
    exists t', mfold (fun t v => if negb (right_op mul (op_of g v)) || is_unused g v then Ok t
                    else if negb (mem v active) then Ok t
                    else let* ms := multiplicities (args g v) in pairs_of v ms t) vs t = Ok t' /\
      table_ok (pair_of g mul active ops) t').
  { induction vs as [|v vs IH]; intros t I Ht; cbn [mfold].
    - now exists t.
    - assert (I' : incl vs ops) by (intros x Hx; apply I; now right).
      destruct (right_op mul (op_of g v)) eqn:Er; cbn [negb orb]; [|now apply IH].
      destruct (is_unused g v); [now apply IH|]. destruct (mem v active) eqn:Em; cbn [negb]; [|now apply IH].
      apply right_op_iff in Er. assert (Hv : In v ops) by (apply I; now left).
      assert (Sv : sorted_names (args g v)) by (apply Hs; [assumption|rewrite Er; apply the_op_comm]).
      unfold multiplicities. rewrite is_sorted_true by assumption. cbn [bind].
      destruct (pairs_of_ok (pair_of g mul active ops) v (runs (args g v)) t Ht) as (t' & E & Ht').
      + apply runs_nodup. now apply sorted_strongly.
      + intros a n c m Ha Hc. apply runs_in in Ha. apply runs_in in Hc. apply mem_in in Em.
        unfold pair_of. destruct (make_pair_cases a c) as [->| ->]; cbn [fst snd]; auto.
      + rewrite E. cbn [bind]. now apply IH. }
  apply G; [apply incl_refl|]. intros p es [].
Qed.

Lemma insert_entry_in x l y : In y (insert_entry x l) <-> y = x \/ In y l.
Proof.
  induction l as [|z t IH]; cbn [insert_entry]; [cbn; intuition congruence|].
  destruct (entry_before z x); cbn [In]; [rewrite IH|]; intuition congruence.
Qed.
Lemma sort_entries_in t y : In y (sort_entries t) <-> In y t.
Proof. induction t as [|x t IH]; [reflexivity|]. cbn [sort_entries fold_right]. fold (sort_entries t). rewrite insert_entry_in, IH. cbn. intuition congruence. Qed.

Lemma identify_ok g mul active ops :
  (forall v, In v ops -> commutative (op_of g v) = true -> sorted_names (args g v)) ->
  exists t, identify g mul active ops = Ok t /\ table_ok (pair_of g mul active ops) t.
Proof.
  intros Hs. unfold identify. destruct (count_pairs_ok g mul active ops Hs) as (t & -> & Ht). cbn [bind].
  eexists. split; [reflexivity|]. intros p es H. apply (proj1 (sort_entries_in _ _)) in H. apply filter_In in H as [H _]. now apply Ht.
Qed.

(** * Replacing a pair *)
Section Value.
Variable A : algebra.
Add Ring DR : (d_ring A).
Lemma prod_pair (r : name -> D A) a c new k : r new = prod A [r a; r c] ->
  prod A (map r (repeat new k)) = dmul A (prod A (map r (repeat a k))) (prod A (map r (repeat c k))).
Proof.
  intros H. induction k as [|k IH]; cbn [repeat map]; unfold prod in *; cbn [fold_right] in *; [ring|]. rewrite IH, H. ring.
Qed.
Lemma sum_pair (r : name -> D A) a c new k : r new = sum A [r a; r c] ->
  sum A (map r (repeat new k)) = dadd A (sum A (map r (repeat a k))) (sum A (map r (repeat c k))).
Proof.
  intros H. induction k as [|k IH]; cbn [repeat map]; unfold sum in *; cbn [fold_right] in *; [ring|]. rewrite IH, H. ring.
Qed.
Lemma sem_pair mul (r : name -> D A) a c new k l :
  r new = sem A (the_op mul) [r a; r c] ->
  sem A (the_op mul) (map r (repeat a k ++ repeat c k ++ l)) = sem A (the_op mul) (map r (l ++ repeat new k)).
Proof.
  intros H. rewrite !map_app. destruct mul; cbn [the_op] in *.
  - rewrite sem_mul in H. rewrite !sem_mul.
    change (prod A (map r (repeat a k) ++ map r (repeat c k) ++ map r l) = prod A (map r l ++ map r (repeat new k))).
    rewrite !prod_app, (prod_pair r a c new k H). ring.
  - rewrite sem_add in H. rewrite !sem_add.
    change (sum A (map r (repeat a k) ++ map r (repeat c k) ++ map r l) = sum A (map r l ++ map r (repeat new k))).
    rewrite !sum_app, (sum_pair r a c new k H). ring.
Qed.
End Value.

Section Pairs.
Context {TY : typing}.

Lemma pair_step g b l mul v a c new :
  program TY g b l -> In v l -> op_of g v = the_op mul -> 2 < length (args g v) ->
  In new l -> op_of g new = the_op mul -> Permutation (args g new) [a; c] ->
  (In a (args g v) -> In c (args g v) -> before l new v) ->
  exists g' k, replace_operand_pair g v a c new = (g', k) /\
    program TY g' b l /\ sim g l g' l /\ g_next g' = g_next g /\
    (forall n, op_of g' n = op_of g n /\ ty_of g' n = ty_of g n) /\
    (forall n, n <> v -> args g' n = args g n) /\
    length (args g' v) + k = length (args g v) /\ 2 <= length (args g' v) /\
    (k = 0 -> Permutation (args g' v) (args g v)).
Proof.
  intros P Hv Eo L Hn Eon Pn Hb. pose proof P as [B O].
  destruct (replace_operand_pair_spec g v a c new (bo_def_use _ _ _ B)) as (g' & E & P1 & P2 & P3 & P4 & P5 & (l' & P6 & P7) & P8).
  set (k := if a =? c then cnt (args g v) a / 2 else Nat.min (cnt (args g v) a) (cnt (args g v) c)) in *.
  exists g', k. split; [assumption|].
  assert (Cv : commutative (op_of g v) = true) by (rewrite Eo; apply the_op_comm).
  assert (Pa : Permutation (args g' v) (l' ++ repeat new k)) by (rewrite P6; apply maybe_sort_perm).
  assert (Len : length (args g' v) = length l' + k) by (rewrite (Permutation_length Pa), app_length, repeat_length; reflexivity).
  assert (Len0 : length (args g v) = k + (k + length l')).
  { rewrite (Permutation_length P7), !app_length, !repeat_length. reflexivity. }
  assert (Hac : k > 0 -> In a (args g v) /\ In c (args g v)).
  { intros K. split; apply (Permutation_in _ (Permutation_sym P7)).
    - apply in_or_app. left. destruct k; [lia|]. now left.
    - apply in_or_app. right. apply in_or_app. left. destruct k; [lia|]. now left. }
  destruct (bo_scalar _ _ _ B v Hv Cv) as (u & Tu & Nu & Hu).
  assert (Hin : forall x, In x (args g' v) -> In x (args g v) \/ (x = new /\ k > 0)).
  { intros x Hx. apply (Permutation_in x Pa) in Hx. apply in_app_or in Hx as [Hx|Hx].
    - left. apply (Permutation_in x (Permutation_sym P7)). rewrite !in_app_iff. tauto.
    - right. destruct k; [destruct Hx|]. apply repeat_spec in Hx. split; [assumption|lia]. }
  assert (Tn : k > 0 -> ty_of g new = TScalar u).
  { intros K. destruct (Hac K) as [Ha _]. destruct (bo_scalar _ _ _ B new Hn) as (u' & Tu' & _ & Hu'); [rewrite Eon; apply the_op_comm|].
    rewrite Tu'. rewrite <- (Hu' a); [now apply Hu|]. apply (Permutation_in a (Permutation_sym Pn)). now left. }
  assert (Th : forall x, In x (args g' v) -> ty_of g' x = TScalar u).
  { intros x Hx. rewrite P3. apply Hin in Hx as [Hx|[-> K]]; auto. }
  assert (Other : forall n, n <> v -> args g' n = args g n) by assumption.
  assert (Cons : forall A (r : name -> D A), consistent r g l -> consistent r g' l).
  { intros A r C n Hnl. rewrite P2. destruct (Nat.eq_dec n v) as [->|N]; [|rewrite P5 by assumption; now apply C].
    rewrite (C v Hv), Eo.
    rewrite (sem_comm_perm A (the_op mul) _ _ (the_op_comm mul) (Permutation_map r P7)).
    rewrite (sem_comm_perm A (the_op mul) _ _ (the_op_comm mul) (Permutation_map r Pa)).
    apply sem_pair. rewrite (C new Hn), Eon.
    apply sem_comm_perm; [apply the_op_comm|]. exact (Permutation_map r Pn). }
  assert (Two : 2 <= length (args g' v)) by lia.
  split; [split|split; [split|]].
  - destruct B. split; try assumption.
    + intros n Hn'. rewrite P1. auto.
    + intros n Hn'. rewrite P4. auto.
    + intros n Hn'. rewrite P5; [auto|]. intros ->. contradiction.
    + intros n Hn' K. rewrite P2 in K. destruct (Nat.eq_dec n v) as [->|N]; [rewrite P6; now apply sorted_maybe|rewrite P5; auto].
    + intros n Hn' K. rewrite P2 in K. destruct (Nat.eq_dec n v) as [->|N]; [assumption|rewrite P5; auto].
    + intros n Hn' K. rewrite P2 in K. rewrite P3. destruct (Nat.eq_dec n v) as [->|N].
      * exists u. split; [assumption|]. split; assumption.
      * rewrite P5 by assumption. destruct (bo_scalar n Hn' K) as (u' & E1 & E2 & E3). exists u'. split; [assumption|]. split; [assumption|].
        intros x Hx. rewrite P3. now apply E3.
    + intros n Hn'. rewrite P2, P3. destruct (Nat.eq_dec n v) as [->|N].
      * rewrite Tu. destruct (args g' v) as [|x xs]; [cbn in Two; lia|]. cbn [map]. rewrite (Th x) by now left.
        symmetry. now apply ft_comm.
      * rewrite P5 by assumption. rewrite (bo_typed n Hn'). f_equal. apply map_ext. intros x. now rewrite P3.
    + intros n Hn'. rewrite P2. destruct (Nat.eq_dec n v) as [->|N]; [rewrite Eo; now destruct mul|rewrite P5; auto].
    + intros n Hn'. rewrite P2. auto.
  - intros n x Hn' Hx. destruct (Nat.eq_dec n v) as [->|N]; [|rewrite P5 in Hx by assumption; now apply O].
    apply Hin in Hx as [Hx|[-> K]]; [now apply O|]. destruct (Hac K). now apply Hb.
  - lia.
  - intros A r C. exists r. split; [reflexivity|now apply Cons].
  - intros n w s. rewrite P2. tauto.
  - intros n Ln. left. rewrite P2. split; [lia|reflexivity].
  - auto.
  - intros H n x Hn' Hx. destruct (Nat.eq_dec n v) as [->|N]; [rewrite (Th x Hx); discriminate|].
    rewrite P5 in Hx by assumption. rewrite P3. now apply (H n).
  - split; [assumption|]. split; [intros; now split|]. split; [assumption|]. split; [lia|]. split; [assumption|].
    intros K. rewrite Pa, P7, K. cbn [repeat app]. now rewrite app_nil_r.
Qed.

(** * Ranks: how far from the inputs a value is *)
Definition ranked (rk : name -> nat) (g : graph) (l : list name) : Prop :=
  forall v a, In v l -> In a (args g v) -> rk a < rk v.

Fixpoint pos (x : name) (l : list name) : nat :=
  match l with [] => 0 | y :: t => if y =? x then 0 else S (pos x t) end.
Lemma pos_le x l : pos x l <= length l.
Proof. induction l as [|y t IH]; cbn; [lia|]. destruct (y =? x); lia. Qed.
Lemma before_pos l a v : NoDup l -> before l a v -> pos a l < pos v l.
Proof.
  intros ND (l1 & l2 & -> & H). revert H ND. induction l1 as [|y t IH]; intros H ND; [destruct H|].
  cbn [app pos]. inversion ND as [|? ? Ny ND']; subst. destruct (Nat.eqb_spec y v) as [->|Nv].
  - exfalso. apply Ny, in_or_app. right. now left.
  - destruct (Nat.eqb_spec y a) as [->|Na]; [lia|]. destruct H as [H|H]; [congruence|]. specialize (IH H ND'). lia.
Qed.
Lemma ranked_exists g b l : program TY g b l -> ranked (fun x => pos x l) g l.
Proof. intros [B O] v a Hv Ha. apply before_pos; [apply B|now apply O]. Qed.

(** * One pair *)
Lemma split_after l a c : NoDup l -> In a l -> In c l ->
  exists m1 m2, l = m1 ++ m2 /\ In a m1 /\ In c m1 /\ forall v, before l a v -> before l c v -> In v m2.
Proof.
  intros ND Ha Hc.
  assert (G : forall x y, In x l -> (x = y \/ before l y x) -> exists m1 m2, l = m1 ++ m2 /\ In x m1 /\ In y m1 /\
            forall v, before l x v -> In v m2).
  { intros x y Hx Hy. apply in_split in Hx as (l1 & l2 & ->). exists (l1 ++ [x]), l2.
    rewrite <- app_assoc. cbn [app]. split; [reflexivity|]. split; [apply in_or_app; right; now left|]. split.
    - destruct Hy as [->|Hy]; [apply in_or_app; right; now left|].
      apply in_or_app. left. destruct Hy as (m1 & m2 & E & Hm). 
      assert (m1 = l1) as ->; [|assumption]. clear - E ND. revert m1 E. induction l1 as [|z l1 IH]; intros m1 E.
      + destruct m1 as [|w m1]; [reflexivity|]. injection E as <- E2. exfalso.
        inversion ND as [|? ? N _]. apply N. rewrite E2. apply in_or_app. right. now left.
      + destruct m1 as [|w m1].
        * injection E as -> E2. exfalso. inversion ND as [|? ? N _]. apply N. apply in_or_app. right. now left.
        * injection E as <- E2. f_equal. apply IH; [now inversion ND|assumption].
    - intros v Hb. change (x :: l2) with ([x] ++ l2) in *. apply before_split in Hb; [|assumption].
      apply nodup_mid in ND as ND'. destruct ND' as [_ N].
      destruct Hb as [Hb|[[Hb _]|Hb]].
      + apply before_in in Hb as [Hb _]. exfalso. apply N, in_or_app. now left.
      + exfalso. apply N, in_or_app. now left.
      + apply before_split in Hb; [|now apply nodup_app_r in ND]. destruct Hb as [(k1 & k2 & E & H)|[[_ H]|H]].
        * destruct k1 as [|? [|]]; try discriminate. destruct H.
        * assumption.
        * apply before_in in H. tauto. }
  destruct (Nat.eq_dec a c) as [<-|N].
  - destruct (G a a Ha (or_introl eq_refl)) as (m1 & m2 & E & H1 & H2 & H3). exists m1, m2. auto.
  - destruct (before_total l a c Ha Hc N) as [Hb|Hb].
    + destruct (G c a Hc (or_intror Hb)) as (m1 & m2 & E & H1 & H2 & H3). exists m1, m2. auto.
    + destruct (G a c Ha (or_intror Hb)) as (m1 & m2 & E & H1 & H2 & H3). exists m1, m2. auto.
Qed.

(** Operands beyond the second, over all operations. *)
Definition excess (g : graph) (l : list name) : nat := list_sum (map (fun v => length (args g v) - 2) l).
Lemma excess_app g l1 l2 : excess g (l1 ++ l2) = excess g l1 + excess g l2.
Proof. unfold excess. rewrite map_app. apply list_sum_app. Qed.
Lemma excess_ext g g' l : (forall v, In v l -> length (args g' v) = length (args g v)) -> excess g' l = excess g l.
Proof.
  intros H. unfold excess. f_equal. apply map_ext_in. intros v Hv. now rewrite H.
Qed.
Lemma excess_one g g' l v : NoDup l -> In v l -> (forall n, n <> v -> args g' n = args g n) ->
  excess g' l + (length (args g v) - 2) = excess g l + (length (args g' v) - 2).
Proof.
  intros ND Hv H. apply in_split in Hv as (l1 & l2 & ->). apply nodup_mid in ND as [_ N]. rewrite in_app_iff in N.
  rewrite !excess_app. change (v :: l2) with ([v] ++ l2). rewrite !excess_app.
  rewrite (excess_ext g g' l1), (excess_ext g g' l2).
  - unfold excess, list_sum. cbn. lia.
  - intros n Hn. rewrite H; [reflexivity|]. intros ->. tauto.
  - intros n Hn. rewrite H; [reflexivity|]. intros ->. tauto.
Qed.

(** What is known about an entry while the graph changes. *)
Record entry_ok (g : graph) (l : list name) (mul : bool) (e : pair * list (name * nat)) : Prop := {
  en_a : In (fst (fst e)) l;
  en_c : In (snd (fst e)) l;
  en_ty : exists u, u <> NBool /\ ty_of g (fst (fst e)) = TScalar u /\ ty_of g (snd (fst e)) = TScalar u;
  en_v : forall v n, In (v, n) (snd e) -> In v l /\ op_of g v = the_op mul
}.
Definition entry_ranked (rk : name -> nat) (m : nat) (e : pair * list (name * nat)) : Prop :=
  snd e <> [] /\ forall v n, In (v, n) (snd e) -> rk (fst (fst e)) < rk v /\ rk (snd (fst e)) < rk v /\ m <= rk v.

(** Progress: either some operand disappeared, or the values to visit next are farther from the inputs. *)
Definition progress (w m : nat) (rk : name -> nat) (g : graph) (l active : list name) : Prop :=
  excess g l < w \/ (ranked rk g l /\ forall c, In c active -> m < rk c).

Lemma consumer_step b l mul a c new w m rk v n g active :
  program TY g b l -> incl active l -> excess g l <= w -> progress w m rk g l active ->
  In v l -> op_of g v = the_op mul -> In new l -> op_of g new = the_op mul -> Permutation (args g new) [a; c] ->
  (forall x, x <> new -> before l a x -> before l c x -> before l new x) -> v <> new ->
  (excess g l < w \/ (m <= rk v /\ rk new <= rk v)) ->
  exists g' active', binarize_consumer a c new (g, active) (v, n) = Ok (g', active') /\
    program TY g' b l /\ sim g l g' l /\ incl active' l /\ g_next g' = g_next g /\
    (forall x, op_of g' x = op_of g x /\ ty_of g' x = ty_of g x) /\
    Permutation (args g' new) [a; c] /\ excess g' l <= excess g l /\ progress w m rk g' l active'.
Proof.
  intros P Ia Hw Pg Hv Ev Hn En Pn Hb Nvn Hr. pose proof P as [B O]. pose proof (bo_nodup _ _ _ B) as ND.
  unfold binarize_consumer. cbn [fst].
  assert (Nv : In a (args g v) -> In c (args g v) -> before l new v).
  { intros H1 H2. apply Hb; [assumption| |]; now apply O. }
  assert (Nnew : forall x, In x (args g new) -> x <> new).
  { intros x Hx ->. apply (before_irrefl l new ND). now apply O. }
  destruct (Nat.ltb_spec 2 (length (args g v))) as [L|L].
  - destruct (pair_step g b l mul v a c new P Hv Ev L Hn En Pn Nv) as (g' & k & E & P' & S' & N' & F' & O' & L' & T' & K').
    rewrite E. eexists g', _. split; [reflexivity|]. split; [assumption|]. split; [assumption|].
    assert (Ex : excess g' l + k <= excess g l) by (pose proof (excess_one g g' l v ND Hv O'); lia).
    split; [|split; [assumption|split; [assumption|split; [|split; [lia|]]]]].
    + destruct (0 <? k); [|assumption]. intros x [<-|Hx]; auto.
    + rewrite O' by congruence. assumption.
    + destruct (Nat.ltb_spec 0 k) as [Lk|Lk]; [left; lia|].
      destruct Pg as [Pg|[Pr Pa]]; [left; lia|]. right. split; [|assumption].
      intros x y Hx Hy. destruct (Nat.eq_dec x v) as [->|Nx].
      * apply Pr; [assumption|]. apply (Permutation_in y (K' ltac:(lia)) Hy).
      * rewrite O' in Hy by assumption. now apply Pr.
  - assert (L2 : 2 <= length (args g v)) by (apply (bo_many _ _ _ B v Hv); rewrite Ev; apply the_op_comm).
    destruct (args g v) as [|x [|y [|]]] eqn:Ea; cbn in L, L2; try lia.
    destruct (negb (is_unused g v) && (x =? a) && (y =? c)) eqn:Eb.
    + apply Bool.andb_true_iff in Eb as [Eb Ey]. apply Bool.andb_true_iff in Eb as [_ Ex].
      apply Nat.eqb_eq in Ex. apply Nat.eqb_eq in Ey. subst x y.
      assert (Bv : before l new v) by (apply Nv; [now left|right; now left]).
      destruct (bo_scalar _ _ _ B v Hv) as (u & Tu & Nu & Hu); [rewrite Ev; apply the_op_comm|].
      destruct (bo_scalar _ _ _ B new Hn) as (u' & Tu' & Nu' & Hu'); [rewrite En; apply the_op_comm|].
      assert (TScalar u = TScalar u') as Euu.
      { rewrite <- (Hu a) by (rewrite Ea; now left). symmetry. rewrite <- (Hu' a); [reflexivity|]. apply (Permutation_in a (Permutation_sym Pn)). now left. }
      destruct (replace_step (T := TY) g b l v new) as (g' & E & P' & S' & N' & F' & A1 & A2 & _); try assumption.
      * congruence.
      * intros z Hz Hvz. apply before_trans with v; [assumption|assumption|now apply O].
      * intros A r C. rewrite (C v Hv), (C new Hn), Ev, En, Ea.
        apply sem_comm_perm; [apply the_op_comm|]. apply Permutation_map. now apply Permutation_sym.
      * rewrite E. cbn [bind]. eexists g', _. split; [reflexivity|]. split; [assumption|]. split; [assumption|].
        assert (Cin : forall z, In z (cons_of g v) -> In z l /\ In v (args g z)).
        { intros z Hz. assert (Hvz : In v (args g z)).
          { apply cnt_in. rewrite <- (bo_def_use _ _ _ B v z). now apply cnt_in. }
          split; [|assumption]. destruct (in_dec Nat.eq_dec z l) as [|Nz]; [assumption|]. rewrite (bo_dead _ _ _ B z Nz) in Hvz. destruct Hvz. }
        assert (Ex : excess g' l = excess g l).
        { apply excess_ext. intros z _. rewrite (Permutation_length (A2 z)). apply map_length. }
        assert (Nin : ~ In v (args g new)).
        { intros H. apply (before_irrefl l v ND). apply before_trans with new; [assumption|now apply O|assumption]. }
        split; [intros z Hz; apply in_app_or in Hz as [Hz|Hz]; [now apply Cin|now apply Ia]|].
        split; [assumption|]. split; [assumption|]. split; [rewrite A1 by assumption; assumption|]. split; [lia|].
        destruct Pg as [Pg|[Pr Pa]]; [left; lia|]. destruct Hr as [Hr|[Hr1 Hr2]]; [left; lia|]. right. split.
        -- intros z y Hz Hy. apply (Permutation_in y (A2 z)) in Hy. apply in_map_iff in Hy as (x & <- & Hx).
           unfold subst_name. destruct (Nat.eqb_spec x v) as [->|]; [|now apply Pr].
           specialize (Pr z v Hz Hx). lia.
        -- intros z Hz. apply in_app_or in Hz as [Hz|Hz]; [|now apply Pa].
           destruct (Cin z Hz) as [H1 H2]. specialize (Pr z v H1 H2). lia.
    + exists g, active. split; [reflexivity|]. split; [assumption|]. split; [apply sim_refl|]. split; [assumption|].
      split; [reflexivity|]. split; [intros; now split|]. split; [assumption|]. split; [lia|assumption].
Qed.

Lemma consumers_fold b l mul a c new w m rk : forall es g active,
  program TY g b l -> incl active l -> excess g l <= w -> progress w m rk g l active ->
  In new l -> op_of g new = the_op mul -> Permutation (args g new) [a; c] ->
  (forall x, x <> new -> before l a x -> before l c x -> before l new x) ->
  (forall v n, In (v, n) es -> In v l /\ op_of g v = the_op mul /\ v <> new) ->
  (excess g l < w \/ forall v n, In (v, n) es -> m <= rk v /\ rk new <= rk v) ->
  exists g' active', mfold (binarize_consumer a c new) es (g, active) = Ok (g', active') /\
    program TY g' b l /\ sim g l g' l /\ incl active' l /\
    (forall x, op_of g' x = op_of g x /\ ty_of g' x = ty_of g x) /\
    excess g' l <= excess g l /\ progress w m rk g' l active'.
Proof.
  induction es as [|[v n] es IH]; intros g active P Ia Hw Pg Hn En Pn Hb Hes Hr; cbn [mfold].
  - exists g, active. split; [reflexivity|]. split; [assumption|]. split; [apply sim_refl|]. split; [assumption|].
    split; [intros; now split|]. split; [lia|assumption].
  - destruct (Hes v n (or_introl eq_refl)) as (Hv & Ev & Nvn).
    destruct (consumer_step b l mul a c new w m rk v n g active) as (g1 & a1 & E1 & P1 & S1 & I1 & _ & F1 & Pn1 & X1 & Pg1); try assumption.
    { destruct Hr as [Hr|Hr]; [now left|right; apply (Hr v n); now left]. }
    rewrite E1. cbn [bind].
    destruct (IH g1 a1) as (g2 & a2 & E2 & P2 & S2 & I2 & F2 & X2 & Pg2); try assumption.
    { lia. }
    { destruct (F1 new) as [-> _]. assumption. }
    { intros x k Hx. destruct (F1 x) as [-> _]. apply (Hes x k). now right. }
    { destruct Hr as [Hr|Hr]; [left; lia|right; intros x k Hx; apply (Hr x k); now right]. }
    exists g2, a2. split; [assumption|]. split; [assumption|]. split; [eapply sim_trans; eassumption|]. split; [assumption|].
    split; [intros x; destruct (F1 x) as [<- <-]; apply F2|]. split; [lia|assumption].
Qed.

(** The state during one round. *)
Definition round_state (w m bound : nat) (g : graph) (l active : list name) (rest : ptable) : Prop :=
  excess g l < w \/
  exists rk, ranked rk g l /\ (forall c, In c active -> m < rk c) /\ (forall v, In v l -> rk v <= bound) /\
    (forall e, In e rest -> entry_ranked rk m e).

Lemma pair_round b mul w m bound e rest g ops l active :
  program TY g b l -> Permutation l ops -> incl active l -> excess g l <= w ->
  (forall e', In e' (e :: rest) -> entry_ok g l mul e') -> round_state w m bound g l active (e :: rest) ->
  exists g' ops' l' active', binarize_pair b mul (g, ops, active) e = Ok (g', ops', active') /\
    program TY g' b l' /\ Permutation l' ops' /\ incl active' l' /\ sim g l g' l' /\ incl l l' /\ excess g' l' <= excess g l /\
    (forall e', In e' rest -> entry_ok g' l' mul e') /\ round_state w m bound g' l' active' rest.
Proof.
  intros P Q Ia Hw He Hr. destruct e as [[a c] es]. unfold binarize_pair.
  destruct (He _ (or_introl eq_refl)) as [Ha Hc (u & Nu & Ta & Tc) Hes]. cbn [fst snd] in *.
  pose proof P as [B O]. pose proof (bo_nodup _ _ _ B) as ND.
  destruct (split_after l a c ND Ha Hc) as (m1 & m2 & El & Ha1 & Hc1 & Hafter). rewrite El in P.
  destruct (push_step (T := TY) g b m1 m2 (the_op mul) (ty_of g a) [a; c] P) as (g1 & E1 & P1 & S1 & N1 & Eo1 & Et1 & Ea1 & Old).
  { intros x [<-|[<-|[]]]; assumption. }
  { rewrite Ta. apply fits_comm; [apply the_op_comm|assumption|cbn; lia|]. intros x [<-|[<-|[]]]; assumption. }
  fold (the_op mul). rewrite E1. cbn [bind]. remember (g_next g) as new eqn:Enew.
  remember (m1 ++ new :: m2) as l' eqn:El'. rewrite <- El in *.
  assert (Fresh : forall x, In x l -> x <> new). { intros x Hx ->. pose proof (bo_fresh _ _ _ B _ Hx). lia. }
  assert (In' : forall x, In x l' <-> x = new \/ In x l).
  { intros x. rewrite El', El, !in_app_iff. cbn. intuition congruence. }
  assert (Il : incl l l') by (intros x Hx; apply In'; now right).
  assert (Hn : In new l') by (apply In'; now left).
  assert (Pn : Permutation (args g1 new) [a; c]) by (rewrite Ea1; apply maybe_sort_perm).
  assert (Ex1 : excess g1 l' = excess g l).
  { rewrite El', El. change (new :: m2) with ([new] ++ m2). rewrite !excess_app.
    rewrite (excess_ext g g1 m1), (excess_ext g g1 m2).
    - unfold excess at 2. cbn [map]. rewrite (Permutation_length Pn). unfold list_sum. cbn. lia.
    - intros x Hx. destruct (Old x) as (_ & _ & ->); [|reflexivity]. apply Fresh. rewrite El. apply in_or_app. now right.
    - intros x Hx. destruct (Old x) as (_ & _ & ->); [|reflexivity]. apply Fresh. rewrite El. apply in_or_app. now left. }
  assert (Aft : forall x, x <> new -> before l' a x -> before l' c x -> before l' new x).
  { assert (ND' : NoDup (m1 ++ new :: m2)) by (rewrite <- El'; apply P1).
    intros x Nx H1 H2. assert (before l a x /\ before l c x) as [H3 H4].
    { rewrite El' in H1, H2. rewrite El. split; eapply before_remove; eauto. }
    specialize (Hafter x H3 H4). rewrite El'.
    change (new :: m2) with ([new] ++ m2). rewrite app_assoc. apply before_app; [|assumption]. apply in_or_app. right. now left. }
  assert (Eold : forall x, In x l -> op_of g1 x = op_of g x /\ ty_of g1 x = ty_of g x /\ args g1 x = args g x).
  { intros x Hx. apply Old. now apply Fresh. }
  assert (Hes1 : forall v n, In (v, n) es -> In v l' /\ op_of g1 v = the_op mul /\ v <> new).
  { intros v n Hv. destruct (Hes v n Hv) as [Hv1 Hv2]. destruct (Eold v Hv1) as (-> & _). auto. }
  assert (Hrk : exists rk, progress w m rk g1 l' active /\
     (excess g1 l' < w \/ forall v n, In (v, n) es -> m <= rk v /\ rk new <= rk v) /\
     (excess g1 l' < w \/ ((forall v, In v l' -> rk v <= bound) /\ forall e', In e' rest -> entry_ranked rk m e'))).
  { destruct Hr as [Hr|(rk & R1 & R2 & R3 & R4)].
    - exists (fun _ => 0). unfold progress. rewrite Ex1. split; [now left|]. split; now left.
    - destruct (R4 _ (or_introl eq_refl)) as [Nes Res]. cbn [fst snd] in *.
      exists (fun x => if x =? new then S (Nat.max (rk a) (rk c)) else rk x).
      assert (Rold : forall x, In x l -> (if x =? new then S (Nat.max (rk a) (rk c)) else rk x) = rk x).
      { intros x Hx. destruct (Nat.eqb_spec x new); [now apply Fresh in Hx|reflexivity]. }
      split; [right; split|split; [right|right; split]].
      + intros v x Hv Hx. apply In' in Hv as [->|Hv].
        * rewrite Nat.eqb_refl. apply (Permutation_in x Pn) in Hx. destruct Hx as [<-|[<-|[]]]; rewrite Rold by assumption; lia.
        * destruct (Eold v Hv) as (_ & _ & Eav). rewrite Eav in Hx. rewrite !Rold; [now apply R1| assumption|eapply args_in; eassumption].
      + intros x Hx. rewrite Rold by now apply Ia. now apply R2.
      + intros v n Hv. rewrite Nat.eqb_refl. destruct (Hes v n Hv) as [Hv1 _]. rewrite Rold by assumption.
        destruct (Res v n Hv) as (X1 & X2 & X3). lia.
      + intros v Hv. apply In' in Hv as [->|Hv]; [|rewrite Rold by assumption; now apply R3].
        rewrite Nat.eqb_refl. destruct es as [|[v0 n0] es]; [congruence|].
        destruct (Res v0 n0 (or_introl eq_refl)) as (X1 & X2 & _). destruct (Hes v0 n0 (or_introl eq_refl)) as [Hv0 _].
        specialize (R3 v0 Hv0). lia.
      + intros e' He'. destruct (R4 e' (or_intror He')) as [Ne' Re']. destruct (He e' (or_intror He')) as [Ha' Hc' _ Hv'].
        split; [assumption|]. intros v n Hv. destruct (Hv' v n Hv) as [Hvl _]. rewrite !Rold by assumption. now apply (Re' v n). }
  destruct Hrk as (rk & Pg & R1 & R2).
  destruct (consumers_fold b l' mul a c new w m rk es g1 active P1) as (g2 & a2 & E2 & P2 & S2 & I2 & F2 & X2 & Pg2); try assumption.
  { intros x Hx. apply Il. now apply Ia. }
  { lia. }
  rewrite E2. cbn [bind]. exists g2, (ops ++ [new]), l', a2. split; [reflexivity|]. split; [assumption|].
  split. { rewrite <- Q, El', El. rewrite <- app_assoc. apply Permutation_app_head. apply (Permutation_app_comm [new] m2). }
  split; [assumption|]. split; [eapply sim_trans; eassumption|]. split; [assumption|]. split; [lia|]. split.
  - intros e' He'. destruct (He e' (or_intror He')) as [Ha' Hc' (u' & Nu' & Ta' & Tc') Hv']. split.
    + now apply Il.
    + now apply Il.
    + exists u'. split; [assumption|]. destruct (F2 (fst (fst e'))) as [_ ->]. destruct (F2 (snd (fst e'))) as [_ ->].
      destruct (Eold _ Ha') as (_ & -> & _). destruct (Eold _ Hc') as (_ & -> & _). now split.
    + intros v n Hv. destruct (Hv' v n Hv) as [Hv1 Hv2]. split; [now apply Il|]. destruct (F2 v) as [-> _]. now destruct (Eold v Hv1) as (-> & _).
  - destruct Pg2 as [Pg2|[Pg2 Pg3]]; [now left|]. destruct R2 as [R2|[R2 R3]]; [left; lia|]. right. exists rk. auto.
Qed.

Lemma pairs_fold b mul w m bound : forall steps g ops l active,
  program TY g b l -> Permutation l ops -> incl active l -> excess g l <= w ->
  (forall e, In e steps -> entry_ok g l mul e) -> round_state w m bound g l active steps ->
  exists g' ops' l' active', mfold (binarize_pair b mul) steps (g, ops, active) = Ok (g', ops', active') /\
    program TY g' b l' /\ Permutation l' ops' /\ incl active' l' /\ sim g l g' l' /\ excess g' l' <= excess g l /\
    round_state w m bound g' l' active' [].
Proof.
  induction steps as [|e steps IH]; intros g ops l active P Q Ia Hw He Hr; cbn [mfold].
  - exists g, ops, l, active. split; [reflexivity|]. split; [assumption|]. split; [assumption|]. split; [assumption|].
    split; [apply sim_refl|]. split; [lia|assumption].
  - destruct (pair_round b mul w m bound e steps g ops l active P Q Ia Hw He Hr)
      as (g1 & o1 & l1 & a1 & E1 & P1 & Q1 & I1 & S1 & _ & X1 & H1 & R1).
    rewrite E1. cbn [bind]. destruct (IH g1 o1 l1 a1) as (g2 & o2 & l2 & a2 & E2 & P2 & Q2 & I2 & S2 & X2 & R2); try assumption; [lia|].
    exists g2, o2, l2, a2. split; [assumption|]. split; [assumption|]. split; [assumption|]. split; [assumption|].
    split; [eapply sim_trans; eassumption|]. split; [lia|assumption].
Qed.

(** One round from a ranked state. *)
Lemma one_round b mul g ops l active rk m bound :
  program TY g b l -> Permutation l ops -> incl active l ->
  ranked rk g l -> (forall v, In v l -> rk v <= bound) -> (forall c, In c active -> m <= rk c) ->
  exists steps g' ops' l' active', identify g mul active ops = Ok steps /\
    mfold (binarize_pair b mul) steps (g, ops, []) = Ok (g', ops', active') /\
    program TY g' b l' /\ Permutation l' ops' /\ incl active' l' /\ sim g l g' l' /\ excess g' l' <= excess g l /\
    round_state (excess g l) m bound g' l' active' [].
Proof.
  intros P Q Ia Rk Rb Rm. pose proof P as [B O].
  assert (Qin : forall x, In x ops <-> In x l).
  { intros x. split; intros H; [apply (Permutation_in x (Permutation_sym Q) H)|apply (Permutation_in x Q H)]. }
  destruct (identify_ok g mul active ops) as (steps & E & Ht).
  { intros v Hv C. apply (bo_sorted _ _ _ B); [now apply Qin|assumption]. }
  assert (Hent : forall e, In e steps -> entry_ok g l mul e /\ entry_ranked rk m e).
  { intros [p es] Hin. destruct (Ht p es Hin) as [Nes Hes].
    assert (Hex : exists v n, In (v, n) es) by (destruct es as [|[v n] es']; [congruence|exists v, n; now left]).
    destruct Hex as (v0 & n0 & H0). destruct (Hes v0 n0 H0) as (V1 & V2 & V3 & V4 & V5). apply Qin in V1.
    destruct (bo_scalar _ _ _ B v0 V1) as (u & Tu & Nu & Hu); [rewrite V2; apply the_op_comm|]. split.
    - split; cbn [fst snd].
      + eapply args_in; eassumption.
      + eapply args_in; eassumption.
      + exists u. auto.
      + intros v n Hv. destruct (Hes v n Hv) as (W1 & W2 & _). split; [now apply Qin|assumption].
    - split; [assumption|]. cbn [fst snd]. intros v n Hv. destruct (Hes v n Hv) as (W1 & W2 & W3 & W4 & W5). apply Qin in W1.
      split; [now apply Rk|]. split; [now apply Rk|now apply Rm]. }
  destruct (pairs_fold b mul (excess g l) m bound steps g ops l []) as (g' & o' & l' & a' & E' & P' & Q' & I' & S' & X' & R').
  - assumption.
  - assumption.
  - intros x [].
  - lia.
  - intros e He. now apply Hent.
  - right. exists rk. split; [assumption|]. split; [intros x []|]. split; [assumption|]. intros e He. now apply Hent.
  - exists steps, g', o', l', a'. split; [assumption|]. split; [assumption|]. split; [assumption|]. split; [assumption|].
    split; [assumption|]. split; [assumption|]. split; assumption.
Qed.

(** The loop ends and is correct. *)
Lemma binarize_loop_spec b mul : forall w, forall k g ops l active rk m bound,
  excess g l <= w -> program TY g b l -> Permutation l ops -> incl active l ->
  ranked rk g l -> (forall v, In v l -> rk v <= bound) -> (forall c, In c active -> m <= rk c) -> bound < m + k ->
  exists fuel0 g' ops' l', (forall fuel, fuel0 <= fuel -> binarize_loop fuel b mul g ops active = Ok (g', ops')) /\
    program TY g' b l' /\ Permutation l' ops' /\ sim g l g' l'.
Proof.
  induction w as [w IHw] using lt_wf_ind.
  induction k as [|k IHk]; intros g ops l active rk m bound Hw P Q Ia Rk Rb Rm Hk.
  - destruct active as [|c active].
    + exists 1, g, ops, l. split; [|split; [assumption|split; [assumption|apply sim_refl]]].
      intros [|fuel] Hf; [lia|reflexivity].
    + exfalso. specialize (Rm c (or_introl eq_refl)). specialize (Rb c (Ia c (or_introl eq_refl))). lia.
  - destruct active as [|c active].
    + exists 1, g, ops, l. split; [|split; [assumption|split; [assumption|apply sim_refl]]].
      intros [|fuel] Hf; [lia|reflexivity].
    + destruct (one_round b mul g ops l (c :: active) rk m bound) as (steps & g1 & o1 & l1 & a1 & Ei & E1 & P1 & Q1 & I1 & S1 & X1 & R1); try assumption.
      assert (Rest : exists fuel0 g' ops' l', (forall fuel, fuel0 <= fuel -> binarize_loop fuel b mul g1 o1 a1 = Ok (g', ops')) /\
                program TY g' b l' /\ Permutation l' ops' /\ sim g1 l1 g' l').
      { destruct R1 as [R1|(rk1 & R2 & R3 & R4 & _)].
        - apply (IHw (excess g1 l1)) with (k := S (length l1)) (l := l1) (rk := fun x => pos x l1) (m := 0) (bound := length l1); try assumption; try lia.
          + now apply ranked_exists with b.
          + intros v _. apply pos_le.
        - apply IHk with (l := l1) (rk := rk1) (m := S m) (bound := bound); try assumption; lia. }
      destruct Rest as (f0 & g2 & o2 & l2 & E2 & P2 & Q2 & S2).
      exists (S f0), g2, o2, l2. split; [|split; [assumption|split; [assumption|eapply sim_trans; eassumption]]].
      intros [|fuel] Hf; [lia|]. cbn [binarize_loop]. rewrite Ei. cbn [bind]. rewrite E1. cbn [bind]. apply E2. lia.
Qed.

Lemma binarize_of_type_spec b mul g ops : program TY g b ops ->
  exists fuel0 g' out, (forall fuel, fuel0 <= fuel -> binarize_of_type fuel b mul (g, ops) = Ok (g', out)) /\
    program TY g' b out /\ sim g ops g' out.
Proof.
  intros P. destruct (binarize_loop_spec b mul (excess g ops) (S (length ops)) g ops ops ops (fun x => pos x ops) 0 (length ops))
    as (f0 & g1 & o1 & l1 & E1 & P1 & Q1 & S1); try assumption; try lia.
  - apply Permutation_refl.
  - apply incl_refl.
  - now apply ranked_exists with b.
  - intros v _. apply pos_le.
  - destruct (finish_spec g1 b l1 o1 P1 Q1) as (g2 & out & E2 & P2 & S2).
    exists f0, g2, out. split; [|split; [assumption|eapply sim_trans; eassumption]].
    intros fuel Hf. unfold binarize_of_type. cbn [fst snd]. rewrite (E1 fuel Hf). cbn [bind]. assumption.
Qed.

Theorem binarize_operations_spec b g ops : program TY g b ops ->
  exists fuel0 g' out, (forall fuel, fuel0 <= fuel -> binarize_operations fuel b (g, ops) = Ok (g', out)) /\
    program TY g' b out /\ sim g ops g' out.
Proof.
  intros P. destruct (binarize_of_type_spec b true g ops P) as (f1 & g1 & o1 & E1 & P1 & S1).
  destruct (binarize_of_type_spec b false g1 o1 P1) as (f2 & g2 & o2 & E2 & P2 & S2).
  exists (Nat.max f1 f2), g2, o2. split; [|split; [assumption|eapply sim_trans; eassumption]].
  intros fuel Hf. unfold binarize_operations. rewrite E1 by lia. cbn [bind]. apply E2. lia.
Qed.

Theorem apply_simplifications_spec b passes binarize g ops : program TY g b ops ->
  exists fuel0 g' out, (forall fuel, fuel0 <= fuel -> apply_simplifications fuel passes b binarize (g, ops) = Ok (g', out)) /\
    program TY g' b out /\ sim g ops g' out /\ (forall v, In v out -> is_unused g' v = false) /\ no_duplicates g' out.
Proof.
  intros P. unfold apply_simplifications.
  destruct (eliminate_duplicates_spec g b ops P) as (g1 & o1 & E1 & P1 & S1 & _). rewrite E1. cbn [bind].
  destruct (factorize_sums_spec b passes g1 o1 P1) as (g2 & o2 & E2 & P2 & S2). rewrite E2. cbn [bind].
  assert (H : exists f0 g3 o3, (forall fuel, f0 <= fuel -> (if binarize then
                let* st := binarize_operations fuel b (g2, o2) in eliminate_duplicates st
              else Ok (g2, o2)) = Ok (g3, o3)) /\ program TY g3 b o3 /\ sim g2 o2 g3 o3).
  { destruct binarize.
    - destruct (binarize_operations_spec b g2 o2 P2) as (f0 & g3 & o3 & E3 & P3 & S3).
      destruct (eliminate_duplicates_spec g3 b o3 P3) as (g4 & o4 & E4 & P4 & S4 & _).
      exists f0, g4, o4. split; [|split; [assumption|eapply sim_trans; eassumption]].
      intros fuel Hf. rewrite E3 by assumption. exact E4.
    - exists 0, g2, o2. split; [reflexivity|]. split; [assumption|apply sim_refl]. }
  destruct H as (f0 & g3 & o3 & E3 & P3 & S3).
  destruct (insert_negations_spec g3 b o3 P3) as (g4 & o4 & E4 & P4 & S4).
  destruct (eliminate_duplicates_spec g4 b o4 P4) as (g5 & o5 & E5 & P5 & S5 & _ & U5 & D5 & _).
  exists f0, g5, o5. split; [|split; [assumption|split; [|split; assumption]]].
  - intros fuel Hf. rewrite E3 by assumption. cbn [bind]. rewrite E4. cbn [bind]. assumption.
  - eapply sim_trans; [exact S1|]. eapply sim_trans; [exact S2|]. eapply sim_trans; [exact S3|]. eapply sim_trans; eassumption.
Qed.
End Pairs.
