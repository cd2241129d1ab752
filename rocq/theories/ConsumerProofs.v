From Coq Require Import List ZArith Arith NArith Permutation Lia Bool.
From Verif Require Import Outcome ConsumerModel ConsumerSpec.
Import ListNotations.
Open Scope outcome_scope.
Open Scope nat_scope.

Section P.
  Context {V : Type}.
  Implicit Types (c : cvec V) (l : list (option V)).

  (** The abstract contents: occupied cells with their positions. *)
  Fixpoint entries_from (k : nat) l : bag V :=
    match l with
    | [] => []
    | Some v :: t => (N.of_nat k, v) :: entries_from (S k) t
    | None :: t => entries_from (S k) t
    end.
  Definition entries c : bag V := entries_from 0 (cells c).

  Definition free_positions l := filter (fun i => match nth i l None with None => true | Some _ => false end)
                                        (seq 0 (length l)).
  (** Every free cell is on the free list exactly once. *)
  Definition wf c : Prop :=
    Permutation (map N.to_nat (freelist c)) (free_positions (cells c)) /\
    (N.of_nat (length (cells c)) <= 4294967296)%N.

  Lemma set_nth_length l i x : length (set_nth l i x) = length l.
  Proof. revert i; induction l; intros [|i]; cbn; auto. Qed.
  Lemma nth_set_nth_eq l i x : i < length l -> nth i (set_nth l i x) None = x.
  Proof. revert i; induction l; intros [|i]; cbn; intros; try lia; auto with arith. Qed.
  Lemma nth_set_nth_neq l i j x : i <> j -> nth j (set_nth l i x) None = nth j l None.
  Proof.
    revert i j; induction l; intros [|i] [|j]; cbn; intros; try lia; auto.
  Qed.

  Lemma entries_from_in k l h v :
    In (h, v) (entries_from k l) <-> exists i, h = N.of_nat (k + i) /\ nth i l None = Some v /\ i < length l.
  Proof.
    revert k; induction l as [|o t IH]; intros k; cbn.
    - split; [tauto|]. intros (i & _ & H & _). destruct i; discriminate.
    - destruct o as [w|].
      + cbn. rewrite IH. split.
        * intros [H|(i & -> & H & L)].
          -- injection H as <- <-. exists 0. rewrite Nat.add_0_r. repeat split; lia.
          -- exists (S i). repeat split; [f_equal; lia|exact H|lia].
        * intros (i & -> & H & L). destruct i as [|i].
          -- left. rewrite Nat.add_0_r. congruence.
          -- right. exists i. repeat split; [f_equal; lia|exact H|lia].
      + rewrite IH. split.
        * intros (i & -> & H & L). exists (S i). repeat split; [f_equal; lia|exact H|lia].
        * intros (i & -> & H & L). destruct i as [|i]; [discriminate|].
          exists i. repeat split; [f_equal; lia|exact H|lia].
  Qed.

  Lemma entries_from_nodup k l : NoDup (handles (entries_from k l)).
  Proof.
    revert k; induction l as [|o t IH]; intros k; cbn; [constructor|].
    destruct o as [w|]; cbn; [|apply IH]. constructor; [|apply IH].
    intros H. apply in_map_iff in H. destruct H as ((h, v) & E & H). cbn in E.
    apply entries_from_in in H. destruct H as (i & -> & _). lia.
  Qed.

  Lemma entries_app k l1 l2 : entries_from k (l1 ++ l2) = entries_from k l1 ++ entries_from (k + length l1) l2.
  Proof.
    revert k; induction l1 as [|o t IH]; intros k; cbn; [now rewrite Nat.add_0_r|].
    rewrite IH. replace (k + S (length t)) with (S k + length t) by lia. destruct o; reflexivity.
  Qed.

  Lemma split_at_nth l i : i < length l -> exists l1 l2, l = l1 ++ nth i l None :: l2 /\ length l1 = i.
  Proof.
    revert i; induction l as [|o t IH]; intros i H; cbn in H; [lia|].
    destruct i as [|i]; [exists [], t; auto|].
    destruct (IH i ltac:(lia)) as (l1 & l2 & E & L). exists (o :: l1), l2. cbn. rewrite <- L at 2.
    split; [congruence|reflexivity].
  Qed.
  Lemma set_nth_app l1 o l2 x : set_nth (l1 ++ o :: l2) (length l1) x = l1 ++ x :: l2.
  Proof. induction l1; cbn; congruence. Qed.

  (** Filling an empty cell / emptying an occupied one. *)
  Lemma entries_fill l i v : i < length l -> nth i l None = None ->
    Permutation (entries_from 0 (set_nth l i (Some v))) ((N.of_nat i, v) :: entries_from 0 l).
  Proof.
    intros H E. destruct (split_at_nth l i H) as (l1 & l2 & El & L). rewrite E in El. rewrite El, <- L, set_nth_app.
    rewrite !entries_app. cbn. symmetry. apply Permutation_middle.
  Qed.
  Lemma entries_clear l i v : i < length l -> nth i l None = Some v ->
    Permutation (entries_from 0 l) ((N.of_nat i, v) :: entries_from 0 (set_nth l i None)).
  Proof.
    intros H E. destruct (split_at_nth l i H) as (l1 & l2 & El & L). rewrite E in El. rewrite El, <- L, set_nth_app.
    rewrite !entries_app. cbn. symmetry. apply Permutation_middle.
  Qed.

  Lemma free_in l i : In i (free_positions l) <-> i < length l /\ nth i l None = None.
  Proof.
    unfold free_positions. rewrite filter_In, in_seq. destruct (nth i l None); intuition (try discriminate; lia).
  Qed.
  Lemma free_nodup l : NoDup (free_positions l).
  Proof. apply NoDup_filter, seq_NoDup. Qed.

  Lemma size_from k l : length (entries_from k l) + length (filter (fun o : option V => match o with None => true | _ => false end) l) = length l.
  Proof.
    revert k; induction l as [|o t IH]; intros k; cbn; [reflexivity|].
    destruct o; cbn; specialize (IH (S k)); lia.
  Qed.
  Lemma free_length l : length (free_positions l) = length (filter (fun o : option V => match o with None => true | _ => false end) l).
  Proof.
    unfold free_positions.
    assert (G : forall pre l, length (filter (fun i => match nth i (pre ++ l) None with None => true | Some _ => false end)
                 (seq (length pre) (length l))) =
              length (filter (fun o : option V => match o with None => true | _ => false end) l)).
    { intros pre l'; revert pre; induction l' as [|o t IH]; intros pre; cbn; [reflexivity|].
      rewrite app_nth2, Nat.sub_diag by lia. cbn [nth].
      specialize (IH (pre ++ [o])). rewrite app_length, <- app_assoc in IH. cbn in IH. rewrite Nat.add_1_r in IH.
      destruct o; cbn; rewrite IH; reflexivity. }
    exact (G [] l).
  Qed.

  Lemma wf_size c : wf c -> cv_size c = Z.of_nat (length (entries c)).
  Proof.
    intros [P _]. unfold cv_size, entries. apply Permutation_length in P. rewrite map_length, free_length in P.
    pose proof (size_from 0 (cells c)). lia.
  Qed.

  Lemma advance_spec l k : exists j, entries_from (k + j) (advance_to_next l) = entries_from k l /\
     (match advance_to_next l with None :: _ => False | _ => True end) /\ length (advance_to_next l) <= length l.
  Proof.
    revert k; induction l as [|o t IH]; intros k; cbn.
    - exists 0. auto.
    - destruct o as [w|]; cbn.
      + exists 0. rewrite Nat.add_0_r. auto.
      + destruct (IH (S k)) as (j & E & M & L). exists (S j). replace (k + S j) with (S k + j) by lia.
        split; [exact E|split; [exact M|lia]].
  Qed.

  Lemma iterate_spec n : forall it k, length it <= n ->
    (match it with None :: _ => False | _ => True end) -> iterate n it = Ok (values (entries_from k it)).
  Proof.
    induction n as [|n IH]; intros it k L M.
    - destruct it; [reflexivity|cbn in L; lia].
    - destruct it as [|o t]; [reflexivity|]. destruct o as [v|]; [|tauto].
      cbn [iterate it_deref hd it_next tl]. unfold it_next; cbn [tl].
      destruct (advance_spec t (S k)) as (j & E & M' & L'). cbn in L.
      rewrite (IH _ (S k + j)); [|lia|exact M']. rewrite E. reflexivity.
  Qed.

  Lemma to_list_spec c : cv_to_list c = Ok (values (entries c)).
  Proof.
    unfold cv_to_list, cv_begin, entries. destruct (advance_spec (cells c) 0) as (j & E & M & L).
    rewrite (iterate_spec _ _ (0 + j) L M), E. reflexivity.
  Qed.

  Lemma wf_empty : wf cv_empty_vec.
  Proof. split; [constructor|cbn; lia]. Qed.
  Lemma entries_empty : entries cv_empty_vec = [].
  Proof. reflexivity. Qed.

  Lemma nth_none_ge l i : length l <= i -> nth i l (@None V) = None.
  Proof. apply nth_overflow. Qed.

  Lemma live_iff c h : live (entries c) h <->
    N.to_nat h < length (cells c) /\ nth (N.to_nat h) (cells c) None <> None.
  Proof.
    unfold live, handles, entries. rewrite in_map_iff. split.
    - intros ((h', v) & <- & H). apply entries_from_in in H. destruct H as (i & -> & E & L). cbn.
      rewrite Nat2N.id. rewrite E. split; [exact L|discriminate].
    - intros [L E]. destruct (nth (N.to_nat h) (cells c) None) as [v|] eqn:E'; [|congruence].
      exists (h, v). split; [reflexivity|]. apply entries_from_in. exists (N.to_nat h).
      cbn. rewrite N2Nat.id. auto.
  Qed.

  Lemma insert_spec c v : wf c -> (N.of_nat (length (cells c)) < 4294967296)%N ->
    exists c' h, cv_insert c v = Ok (c', h) /\ wf c' /\ bag_insert (entries c) v h (entries c').
  Proof.
    intros [P B] L. unfold cv_insert. destruct (freelist c) as [|i f] eqn:F.
    - eexists _, _. split; [reflexivity|]. cbn in P. apply Permutation_nil in P. split.
      + split; cbn [cells freelist].
        * cbn. rewrite (proj1 (length_zero_iff_nil (free_positions (cells c ++ [Some v])))); [constructor|].
          rewrite free_length, filter_app, app_length, <- free_length, P. reflexivity.
        * rewrite app_length. cbn. lia.
      + constructor.
        * intros H. apply live_iff in H. lia.
        * unfold entries. cbn [cells]. rewrite entries_app. cbn. symmetry. apply Permutation_cons_append.
    - assert (I : In (N.to_nat i) (free_positions (cells c))).
      { eapply Permutation_in; [exact P|]. left; reflexivity. }
      apply free_in in I. destruct I as [I1 I2].
      replace (N.ltb i (N.of_nat (length (cells c)))) with true by (symmetry; apply N.ltb_lt; lia).
      eexists _, _. split; [reflexivity|]. split.
      + split; cbn [cells freelist]; [|rewrite set_nth_length; exact B].
        pose proof (free_nodup (cells c)) as ND.
        assert (ND' : NoDup (N.to_nat i :: map N.to_nat f)) by (eapply Permutation_NoDup; [symmetry; exact P|exact ND]).
        inversion ND'; subst.
        apply NoDup_Permutation; [assumption|apply free_nodup|].
        intros x. rewrite free_in, set_nth_length. split.
        * intros Hx. assert (N.to_nat i <> x) by congruence.
          rewrite nth_set_nth_neq by assumption. apply free_in.
          eapply Permutation_in; [exact P|]. now right.
        * intros [Hx E]. destruct (Nat.eq_dec (N.to_nat i) x) as [<-|N].
          -- rewrite nth_set_nth_eq in E by assumption. discriminate.
          -- rewrite nth_set_nth_neq in E by assumption.
             assert (In x (N.to_nat i :: map N.to_nat f)).
             { eapply Permutation_in; [symmetry; exact P|]. apply free_in. auto. }
             destruct H; [congruence|assumption].
      + constructor.
        * intros H. apply live_iff in H. tauto.
        * unfold entries. cbn [cells]. rewrite <- (N2Nat.id i) at 2. apply entries_fill; assumption.
  Qed.

  Lemma insert_reuse c v i f : wf c -> freelist c = i :: f ->
    exists c', cv_insert c v = Ok (c', i) /\ wf c' /\ bag_insert (entries c) v i (entries c') /\
      length (cells c') = length (cells c).
  Proof.
    intros W F. destruct W as [P B].
    assert (I : In (N.to_nat i) (free_positions (cells c))).
    { eapply Permutation_in; [exact P|]. rewrite F. left; reflexivity. }
    apply free_in in I. destruct I as [I1 I2].
    unfold cv_insert. rewrite F.
    replace (N.ltb i (N.of_nat (length (cells c)))) with true by (symmetry; apply N.ltb_lt; lia).
    eexists. split; [reflexivity|]. split; [|split].
    + split; cbn [cells freelist]; [|rewrite set_nth_length; exact B].
      pose proof (free_nodup (cells c)) as ND. rewrite F in P.
      assert (ND' : NoDup (N.to_nat i :: map N.to_nat f)) by (eapply Permutation_NoDup; [symmetry; exact P|exact ND]).
      inversion ND'; subst.
      apply NoDup_Permutation; [assumption|apply free_nodup|].
      intros x. rewrite free_in, set_nth_length. split.
      * intros Hx. assert (N.to_nat i <> x) by congruence.
        rewrite nth_set_nth_neq by assumption. apply free_in.
        eapply Permutation_in; [exact P|]. now right.
      * intros [Hx E]. destruct (Nat.eq_dec (N.to_nat i) x) as [<-|N].
        -- rewrite nth_set_nth_eq in E by assumption. discriminate.
        -- rewrite nth_set_nth_neq in E by assumption.
           assert (In x (N.to_nat i :: map N.to_nat f)).
           { eapply Permutation_in; [symmetry; exact P|]. apply free_in. auto. }
           destruct H; [congruence|assumption].
    + constructor.
      * intros H. apply live_iff in H. tauto.
      * unfold entries. cbn [cells]. rewrite <- (N2Nat.id i) at 2. apply entries_fill; assumption.
    + cbn. apply set_nth_length.
  Qed.

  Lemma remove_spec c h : wf c -> live (entries c) h ->
    exists c', cv_remove c h = Ok c' /\ wf c' /\ bag_remove (entries c) h (entries c').
  Proof.
    intros [P B] H. apply live_iff in H. destruct H as [L E].
    destruct (nth (N.to_nat h) (cells c) None) as [v|] eqn:E'; [|congruence].
    unfold cv_remove. replace (N.ltb h (N.of_nat (length (cells c)))) with true by (symmetry; apply N.ltb_lt; lia).
    rewrite E'. eexists. split; [reflexivity|]. split.
    - split; cbn [cells freelist]; [|rewrite set_nth_length; exact B].
      unfold to_u32. rewrite N.mod_small by lia. cbn [map].
      assert (NI : ~ In (N.to_nat h) (free_positions (cells c))) by (rewrite free_in; intros [_ ?]; congruence).
      apply NoDup_Permutation.
      + constructor.
        * intros I. apply NI. eapply Permutation_in; [exact P|exact I].
        * eapply Permutation_NoDup; [symmetry; exact P|apply free_nodup].
      + apply free_nodup.
      + intros x. rewrite free_in, set_nth_length. split.
        * intros [<-|I].
          -- rewrite nth_set_nth_eq; auto.
          -- assert (I' : In x (free_positions (cells c))) by (eapply Permutation_in; [exact P|exact I]).
             assert (N.to_nat h <> x) by congruence. apply free_in in I'.
             rewrite nth_set_nth_neq; tauto.
        * intros [Lx Ex]. destruct (Nat.eq_dec (N.to_nat h) x) as [->|N]; [now left|right].
          rewrite nth_set_nth_neq in Ex by assumption.
          eapply Permutation_in; [symmetry; exact P|]. apply free_in; auto.
    - apply (bag_rem _ _ v). unfold entries. cbn [cells]. pose proof (entries_clear (cells c) (N.to_nat h) v L E') as Q. rewrite N2Nat.id in Q. exact Q.
  Qed.

  Lemma remove_dead c h : ~ live (entries c) h -> cv_remove c h = Throws.
  Proof.
    intros H. unfold cv_remove. destruct (N.ltb_spec h (N.of_nat (length (cells c)))) as [L|L]; [|reflexivity].
    destruct (nth (N.to_nat h) (cells c) None) eqn:E; [|reflexivity].
    exfalso. apply H. apply live_iff. rewrite E. split; [lia|discriminate].
  Qed.

  Lemma classic_live c h : live (entries c) h \/ ~ live (entries c) h.
  Proof.
    unfold live. destruct (in_dec N.eq_dec h (handles (entries c))); tauto.
  Qed.

  Lemma cells_bound_run h : forall c c', cv_run c h = Ok c' -> length (cells c') <= length (cells c) + inserted h.
  Proof.
    induction h as [|o t IH]; intros c c' E; cbn in E.
    - injection E as ->. lia.
    - destruct (cv_apply c o) as [c1| | | |] eqn:A; cbn in E; try discriminate.
      apply IH in E. unfold inserted in *. cbn [filter].
      destruct o as [v|i]; cbn in A.
      + unfold cv_insert in A. destruct (freelist c) as [|i f].
        * cbn in A. injection A as <-. cbn in E. rewrite app_length in E. cbn in *. lia.
        * destruct (N.ltb i _); [|discriminate]. cbn in A. injection A as <-. cbn in E. rewrite set_nth_length in E. cbn. lia.
      + unfold cv_remove in A. destruct (N.ltb i _); [|discriminate].
        destruct (nth _ _ _); [|discriminate]. injection A as <-. cbn in E. rewrite set_nth_length in E. lia.
  Qed.

  Lemma run_spec h : forall c c', wf c -> (N.of_nat (length (cells c) + inserted h) <= 4294967296)%N ->
    cv_run c h = Ok c' -> wf c' /\ bag_run (entries c) h (entries c').
  Proof.
    induction h as [|o t IH]; intros c c' W B E; cbn in E.
    - injection E as <-. split; [exact W|constructor].
    - destruct (cv_apply c o) as [c1| | | |] eqn:A; cbn in E; try discriminate.
      assert (BB := cells_bound_run [o] c c1). cbn [cv_run] in BB. rewrite A in BB. specialize (BB eq_refl).
      unfold inserted in *. cbn [filter] in *.
      destruct o as [v|i].
      + cbn in *. destruct (insert_spec c v W) as (c1' & hh & E1 & W1 & I1); [lia|].
        rewrite E1 in A. cbn in A. injection A as <-.
        destruct (IH c1' c' W1) as [W2 R2]; [lia|exact E|]. split; [exact W2|]. econstructor; eassumption.
      + cbn in *. destruct (classic_live c i) as [Hl|Hl].
        * destruct (remove_spec c i W Hl) as (c1' & E1 & W1 & I1). rewrite E1 in A. injection A as <-.
          destruct (IH c1' c' W1) as [W2 R2]; [lia|exact E|]. split; [exact W2|]. econstructor; eassumption.
        * rewrite (remove_dead c i Hl) in A. discriminate.
  Qed.
End P.

Section Overflow.
  (** More than 2^32 cells: the stored free index is truncated. *)
  Lemma run_inserts {V} (v : V) n : forall k,
    cv_run {| cells := repeat (Some v) k; freelist := [] |} (repeat (OInsert v) n)
    = Ok {| cells := repeat (Some v) (k + n); freelist := [] |}.
  Proof.
    induction n as [|n IH]; intros k; [now rewrite Nat.add_0_r|].
    cbn [repeat cv_run cv_apply cv_insert freelist cells bind fst].
    replace (repeat (Some v) k ++ [Some v]) with (repeat (Some v) (S k)).
    - rewrite IH. do 3 f_equal. lia.
    - rewrite <- (repeat_app (Some v) k 1) || idtac. replace (S k) with (k + 1) by lia. now rewrite repeat_app.
  Qed.

  Lemma cv_run_app {V} (h1 h2 : list (cv_op V)) : forall c,
    cv_run c (h1 ++ h2) = (let* c' := cv_run c h1 in cv_run c' h2).
  Proof.
    induction h1 as [|o t IH]; intros c; cbn; [reflexivity|].
    destruct (cv_apply c o); cbn; auto.
  Qed.

  Lemma truncation_breaks_size : exists (h : list (cv_op nat)) c l,
    cv_run cv_empty_vec h = Ok c /\ cv_to_list c = Ok l /\ cv_size c <> Z.of_nat (length l).
  Proof.
    remember (N.to_nat 4294967296) as n eqn:En.
    assert (Hn : N.of_nat n = 4294967296%N) by (subst n; apply N2Nat.id).
    set (c1 := {| cells := repeat (Some 1%nat) (S n); freelist := [] : list N |}).
    set (c2 := {| cells := repeat (Some 1%nat) n ++ [None]; freelist := [0%N] |}).
    assert (R1 : cv_run cv_empty_vec (repeat (OInsert 1%nat) (S n)) = Ok c1).
    { exact (run_inserts 1%nat (S n) 0). }
    assert (Erep : repeat (Some 1%nat) (S n) = repeat (Some 1%nat) n ++ [Some 1%nat]).
    { replace (S n) with (n + 1) by lia. now rewrite repeat_app. }
    assert (R2 : cv_remove c1 4294967296 = Ok c2).
    { unfold cv_remove, c1. cbn [cells freelist]. rewrite repeat_length.
      replace (N.ltb 4294967296 (N.of_nat (S n))) with true by (symmetry; apply N.ltb_lt; lia).
      rewrite <- En. rewrite Erep. rewrite app_nth2; rewrite repeat_length; [|lia]. rewrite Nat.sub_diag. cbn [nth].
      unfold c2. do 2 f_equal. 
      rewrite <- (repeat_length (Some 1%nat) n) at 2. apply set_nth_app. }
    destruct n as [|m]; [lia|].
    set (c3 := {| cells := Some 2%nat :: repeat (Some 1%nat) m ++ [None]; freelist := [] : list N |}).
    assert (R3 : cv_insert c2 2%nat = Ok (c3, 0%N)).
    { unfold cv_insert, c2. cbn [freelist cells].
      replace (N.ltb 0 _) with true; [reflexivity|]. symmetry. apply N.ltb_lt. cbn [repeat app length]. lia. }
    exists (repeat (OInsert 1%nat) (S (S m)) ++ [ORemove 4294967296%N; OInsert 2%nat]), c3, (values (entries c3)).
    split; [|split].
    - rewrite cv_run_app, R1. cbn [bind cv_run cv_apply]. rewrite R2. cbn [bind]. rewrite R3. reflexivity.
    - apply to_list_spec.
    - unfold cv_size, values. rewrite map_length. cbn [freelist length].
      pose proof (size_from 0 (cells c3)) as S0. unfold entries.
      assert (0 < length (filter (fun o : option nat => match o with None => true | _ => false end) (cells c3))).
      { unfold c3. cbn [cells filter]. rewrite filter_app, app_length. cbn. lia. }
      change (length (freelist c3)) with 0. lia.
  Qed.
End Overflow.
