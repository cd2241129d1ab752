From Coq Require Import ZArith List Bool Lia Znumtheory.
From Verif Require Import AllocatorModel AllocatorSpec.
Import ListNotations.
Open Scope Z_scope.

Lemma wrap_small z : 0 <= z < SIZE_MOD -> wrap z = z.
Proof. intros. unfold wrap. apply Z.mod_small; assumption. Qed.

Lemma round_spec align n : 0 < align < 4611686018427387904 -> 0 <= n < 9223372036854775808 ->
  (align | round_to_alignment align n) /\ n <= round_to_alignment align n < n + align.
Proof.
  intros Ha Hn. unfold round_to_alignment. pose proof (Z.mod_pos_bound n align ltac:(lia)) as Hm.
  pose proof (Z.div_mod n align ltac:(lia)) as Hd.
  destruct (Z.eqb_spec (n mod align) 0) as [E|E].
  - split; [exists (n / align); lia|lia].
  - rewrite wrap_small by (unfold SIZE_MOD; lia). split; [|lia].
    exists (n / align + 1). lia.
Qed.

Definition compat (sizeof align : Z) (b c : block) : Prop :=
  b_src b = FromArena -> b_src c = FromArena ->
  disjoint (b_ptr b) (round_to_alignment align (bytes sizeof b))
           (b_ptr c) (round_to_alignment align (bytes sizeof c)).

Lemma compat_sym sizeof align b c : compat sizeof align b c -> compat sizeof align c b.
Proof. unfold compat, disjoint. intuition. Qed.

Ltac conj := repeat match goal with |- _ /\ _ => split end.

Fixpoint pairwise (R : block -> block -> Prop) (l : list block) : Prop :=
  match l with
  | [] => True
  | b :: t => Forall (R b) t /\ pairwise R t
  end.

Lemma pairwise_remove R k : forall l, pairwise R l -> pairwise R (remove_nth k l).
Proof.
  induction k as [|k IH]; intros [|b t]; cbn; try tauto.
  intros [F P]. split; [|auto]. rewrite Forall_forall in *. intros x Hx. apply F.
  clear - Hx. revert k Hx. induction t as [|y t IH]; intros [|k]; cbn; try tauto; intros H.
  destruct H; [auto|right; eauto].
Qed.
Lemma in_remove_nth {A} k : forall (l : list A) x, In x (remove_nth k l) -> In x l.
Proof.
  induction k as [|k IH]; intros [|y t] x; cbn; try tauto. intros [H|H]; auto.
Qed.
Lemma pairwise_other (R : block -> block -> Prop) k : (forall a b, R a b -> R b a) -> forall l b, nth_error l k = Some b -> pairwise R l ->
  Forall (R b) (remove_nth k l).
Proof.
  intros Sy. induction k as [|k IH]; intros [|y t] b; cbn; try discriminate.
  - intros E. injection E as ->. tauto.
  - intros E [F P]. constructor; [|auto].
    apply Sy. rewrite Forall_forall in F. apply F. eapply nth_error_In; eassumption.
Qed.
Lemma pairwise_nth (R : block -> block -> Prop) : (forall a b, R a b -> R b a) -> forall l i j b c, pairwise R l -> nth_error l i = Some b -> nth_error l j = Some c ->
  i <> j -> R b c.
Proof.
  intros Sy. induction l as [|y t IH]; intros i j b c P Ei Ej N; [destruct i; discriminate|].
  destruct P as [F P]. rewrite Forall_forall in F. destruct i as [|i], j as [|j]; cbn in Ei, Ej.
  - congruence.
  - injection Ei as ->. apply F. eapply nth_error_In; eassumption.
  - injection Ej as ->. apply Sy, F. eapply nth_error_In; eassumption.
  - apply (IH i j); auto.
Qed.

Section A.
  Variables data cap align sizeof : Z.
  Hypothesis HA : arena_ok data cap align.
  Hypothesis Hsz : 0 < sizeof.

  Definition inv (s : arena * list block) : Prop :=
    let (a, live) := s in
    arena_data a = data /\ arena_capacity a = cap /\ arena_align a = align /\
    data <= arena_p a <= data + cap /\ (align | arena_p a) /\
    (forall b, In b live -> 0 <= b_size b /\ bytes sizeof b < 9223372036854775808 /\
        match b_src b with
        | FromArena => 0 < b_size b /\ data <= b_ptr b /\ (align | b_ptr b) /\
                       b_ptr b + round_to_alignment align (bytes sizeof b) <= arena_p a
        | FromHeap => b_ptr b < data \/ data + cap <= b_ptr b
        end) /\
    pairwise (compat sizeof align) live.

  Lemma inv_new : inv (arena_new data cap align, []).
  Proof.
    destruct HA as (Ha & Hd & Hc & Hm & Hdiv). cbn. conj; try lia; try assumption; contradiction.
  Qed.

  Lemma inv_step s c : inv s -> request_ok data cap sizeof c ->
    match do_call sizeof s c with
    | None => True
    | Some (s', ok) => inv s' /\ ok = true
    end.
  Proof.
    destruct s as [a live]. intros (E1 & E2 & E3 & Hp & Hal & HB & HP) RQ.
    destruct HA as (Ha & Hd & Hc & Hm & Hdiv).
    destruct c as [n heap|k]; cbn [do_call].
    - destruct RQ as (Hn & Hb & Hh). unfold stl_allocate.
      rewrite (wrap_small (sizeof * n)) by (unfold SIZE_MOD; nia).
      unfold arena_allocate. destruct (Z.eqb_spec (sizeof * n) 0) as [Z0|Z0].
      + split; [|reflexivity]. cbn. conj; try assumption; try lia.
        * intros b [<-|Hin]; [|apply HB; assumption]. cbn. split; [assumption|]. split; [exact Hb|]. lia.
        * apply Forall_forall. intros x _. unfold compat. cbn. discriminate.
      + assert (Hpos : 0 < n) by nia.
        destruct (round_spec align (sizeof * n) Ha ltac:(nia)) as [R1 R2].
        rewrite E1, E2, E3. set (na := round_to_alignment align (sizeof * n)) in *.
        rewrite (wrap_small (arena_p a + na)) by (unfold SIZE_MOD; nia).
        rewrite (wrap_small (data + cap)) by (unfold SIZE_MOD; lia).
        destruct (Z.gtb_spec (arena_p a + na) (data + cap)) as [G|G].
        * split; [|reflexivity]. cbn. conj; try assumption; try lia.
          -- intros b [<-|Hin]; [|apply HB; assumption]. cbn. split; [assumption|]. split; [exact Hb|]. lia.
          -- apply Forall_forall. intros x _. unfold compat. cbn. discriminate.
        * split; [|reflexivity]. cbn. conj; try assumption; try lia.
          -- apply Z.divide_add_r; assumption.
          -- intros b [<-|Hin].
             ++ cbn. conj; try assumption; try lia. unfold bytes. cbn. fold na. lia.
             ++ destruct (HB b Hin) as (A1 & A2 & A3). split; [exact A1|split; [exact A2|]].
                destruct (b_src b); [|exact A3]. intuition lia.
          -- apply Forall_forall. intros x Hin. unfold compat, disjoint. cbn. intros _ Sx.
             destruct (HB x Hin) as (_ & _ & A3). rewrite Sx in A3. right. lia.
    - destruct (nth_error live k) as [b|] eqn:Ek; [|exact I].
      pose proof (HB b (nth_error_In _ _ Ek)) as (A1 & A2 & A3).
      unfold stl_deallocate, arena_owns. rewrite E1, E2.
      rewrite (wrap_small (data + cap)) by (unfold SIZE_MOD; lia).
      rewrite (wrap_small (sizeof * b_size b)) by (unfold SIZE_MOD, bytes in *; nia).
      destruct (b_src b) eqn:Sb.
      + destruct A3 as (P0 & P1 & P2 & P3).
        destruct (round_spec align (sizeof * b_size b) Ha) as [R1 R2]; [unfold bytes in A2; nia|].
        assert (Hlt : b_ptr b < data + cap) by (unfold bytes in P3; nia).
        replace (data <=? b_ptr b) with true by (symmetry; apply Z.leb_le; lia).
        replace (b_ptr b <? data + cap) with true by (symmetry; apply Z.ltb_lt; lia).
        cbn [andb]. unfold arena_deallocate. rewrite E3.
        set (na := round_to_alignment align (sizeof * b_size b)) in *.
        unfold bytes in P3. fold na in P3.
        rewrite (wrap_small (b_ptr b + na)) by (unfold SIZE_MOD; lia).
        split; [|reflexivity].
        destruct (Z.eqb_spec (b_ptr b + na) (arena_p a)) as [T|T].
        * cbn. conj; try assumption; try lia; [|apply pairwise_remove; assumption].
          intros c Hin. destruct (HB c (in_remove_nth _ _ _ Hin)) as (B1 & B2 & B3).
          split; [exact B1|split; [exact B2|]]. destruct (b_src c) eqn:Sc; [|exact B3].
          destruct B3 as (Q0 & Q1 & Q2 & Q3). conj; try assumption.
          pose proof (pairwise_other _ k (compat_sym sizeof align) live b Ek HP) as F.
          rewrite Forall_forall in F. specialize (F c Hin Sb Sc). unfold disjoint, bytes in F. fold na in F.
          destruct F as [F|F]; [|exact F].
          (* c would start at the top: impossible, it is not empty and ends at or below p *)
          destruct (round_spec align (sizeof * b_size c) Ha) as [R3 R4]; [unfold bytes in B2; nia|].
          unfold bytes in Q3. nia.
        * cbn. conj; try assumption; try lia; [|apply pairwise_remove; assumption].
          intros c Hin. apply HB. eapply in_remove_nth; eassumption.
      + replace ((data <=? b_ptr b) && (b_ptr b <? data + cap)) with false.
        2:{ symmetry. apply andb_false_iff. rewrite Z.leb_gt, Z.ltb_ge. lia. }
        split; [|reflexivity]. cbn. conj; try assumption; try lia; [|apply pairwise_remove; assumption].
        intros c Hin. apply HB. eapply in_remove_nth; eassumption.
  Qed.

  Lemma inv_run h : forall s s' ok, inv s -> Forall (request_ok data cap sizeof) h ->
    do_calls sizeof s h = Some (s', ok) -> inv s' /\ ok = true.
  Proof.
    induction h as [|c t IH]; intros s s' ok I F E; cbn in E.
    - injection E as <- <-. auto.
    - inversion F; subst. pose proof (inv_step s c I H1) as St.
      destruct (do_call sizeof s c) as [[s1 ok1]|]; [|discriminate]. destruct St as [I1 ->].
      destruct (do_calls sizeof s1 t) as [[s2 ok2]|] eqn:E2; [|discriminate].
      injection E as <- <-. destruct (IH _ _ _ I1 H2 E2) as [I2 ->]. auto.
  Qed.

  Lemma inv_blocks a live : inv (a, live) -> blocks_ok data cap align sizeof live.
  Proof.
    intros (E1 & E2 & E3 & Hp & Hal & HB & HP). destruct HA as (Ha & _). split.
    - intros b Hin Sb. destruct (HB b Hin) as (A1 & A2 & A3). rewrite Sb in A3.
      destruct A3 as (P0 & P1 & P2 & P3).
      destruct (round_spec align (bytes sizeof b) Ha) as [R1 R2]; [unfold bytes in *; nia|]. repeat split; [lia|lia|assumption].
    - intros i j b c Ei Ej N Sb Sc.
      pose proof (pairwise_nth _ (compat_sym sizeof align) live i j b c HP Ei Ej N Sb Sc) as D.
      destruct (HB b (nth_error_In _ _ Ei)) as (A1 & A2 & _).
      destruct (HB c (nth_error_In _ _ Ej)) as (B1 & B2 & _).
      destruct (round_spec align (bytes sizeof b) Ha) as [R1 R2]; [unfold bytes in *; nia|].
      destruct (round_spec align (bytes sizeof c) Ha) as [R3 R4]; [unfold bytes in *; nia|].
      unfold disjoint in *. lia.
  Qed.

  (** LIFO: freeing what was just allocated restores the arena. *)
  Lemma alloc_free a live n heap a' live' ok s'' ok' : inv (a, live) -> request_ok data cap sizeof (Alloc n heap) ->
    do_call sizeof (a, live) (Alloc n heap) = Some ((a', live'), ok) ->
    do_call sizeof (a', live') (Free 0) = Some (s'', ok') -> s'' = (a, live).
  Proof.
    intros IV RQ C1 C2.
    pose proof IV as (E1 & E2 & E3 & Hp & Hal & HB & HP). pose proof RQ as (Hn & Hb & Hh).
    pose proof HA as (Ha & Hd & Hc & Hm & Hdiv).
    cbn [do_call] in C1. unfold stl_allocate in C1.
    rewrite (wrap_small (sizeof * n)) in C1 by (unfold SIZE_MOD; nia).
    assert (Out : forall live0, match do_call sizeof (a, {| b_ptr := heap; b_size := n; b_src := FromHeap |} :: live0) (Free 0) with
                  | Some (s, _) => s = (a, live0) | None => True end).
    { intros live0. cbn. unfold stl_deallocate, arena_owns. cbn. rewrite E1, E2.
      rewrite (wrap_small (data + cap)) by (unfold SIZE_MOD; lia).
      replace ((data <=? heap) && (heap <? data + cap)) with false; [reflexivity|].
      symmetry. apply andb_false_iff. rewrite Z.leb_gt, Z.ltb_ge. lia. }
    unfold arena_allocate in C1. destruct (Z.eqb_spec (sizeof * n) 0) as [Z0|Z0].
    - injection C1 as <- <- <-. specialize (Out live). rewrite C2 in Out. exact Out.
    - assert (Hpos : 0 < n) by nia.
      destruct (round_spec align (sizeof * n) Ha ltac:(nia)) as [R1 R2].
      rewrite E1, E2, E3 in C1. set (na := round_to_alignment align (sizeof * n)) in *.
      rewrite (wrap_small (arena_p a + na)) in C1 by (unfold SIZE_MOD; nia).
      rewrite (wrap_small (data + cap)) in C1 by (unfold SIZE_MOD; lia).
      destruct (Z.gtb_spec (arena_p a + na) (data + cap)) as [G|G].
      + injection C1 as <- <- <-. specialize (Out live). rewrite C2 in Out. exact Out.
      + injection C1 as <- <- <-. cbn in C2. unfold stl_deallocate, arena_owns, arena_deallocate in C2. cbn in C2.
        rewrite E1, E2, E3 in C2. rewrite (wrap_small (data + cap)) in C2 by (unfold SIZE_MOD; lia).
        rewrite (wrap_small (sizeof * n)) in C2 by (unfold SIZE_MOD; nia). fold na in C2.
        replace (data <=? arena_p a) with true in C2 by (symmetry; apply Z.leb_le; lia).
        replace (arena_p a <? data + cap) with true in C2 by (symmetry; apply Z.ltb_lt; nia).
        cbn [andb] in C2. rewrite (wrap_small (arena_p a + na)) in C2 by (unfold SIZE_MOD; nia).
        rewrite Z.eqb_refl in C2. injection C2 as <- <-. unfold set_p. cbn. destruct a; cbn in *; subst; reflexivity.
  Qed.
End A.

Lemma do_calls_app sizeof h1 h2 : forall s,
  do_calls sizeof s (h1 ++ h2) =
  match do_calls sizeof s h1 with
  | None => None
  | Some (s', ok) => match do_calls sizeof s' h2 with None => None | Some (s'', ok') => Some (s'', ok && ok') end
  end.
Proof.
  induction h1 as [|c t IH]; intros s; cbn.
  - destruct (do_calls sizeof s h2) as [[? ?]|]; reflexivity.
  - destruct (do_call sizeof s c) as [[s1 o1]|]; [|reflexivity]. rewrite IH.
    destruct (do_calls sizeof s1 t) as [[s2 o2]|]; [|reflexivity].
    destruct (do_calls sizeof s2 h2) as [[s3 o3]|]; [|reflexivity]. now rewrite andb_assoc.
Qed.

Lemma lifo_run data cap align sizeof : arena_ok data cap align -> 0 < sizeof -> forall h, lifo h ->
  forall s, inv data cap align sizeof s -> Forall (request_ok data cap sizeof) h ->
  do_calls sizeof s h = Some (s, true).
Proof.
  intros HA Hsz h L. induction L as [|n heap h1 h2 L1 IH1 L2 IH2]; intros s IV F; [reflexivity|].
  inversion F as [|? ? RQ F']; subst. apply Forall_app in F'. destruct F' as [F1 F2].
  inversion F2 as [|? ? _ F3]; subst.
  destruct s as [a live].
  pose proof (inv_step data cap align sizeof HA Hsz (a, live) (Alloc n heap) IV RQ) as St.
  cbn [do_calls]. destruct (do_call sizeof (a, live) (Alloc n heap)) as [[[a1 live1] o1]|] eqn:C1.
  - destruct St as [IV1 ->]. rewrite do_calls_app, (IH1 (a1, live1) IV1 F1).
    cbn [do_calls].
    pose proof (inv_step data cap align sizeof HA Hsz (a1, live1) (Free 0) IV1 I) as St.
    destruct (do_call sizeof (a1, live1) (Free 0)) as [[s2 o2]|] eqn:C2.
    + pose proof (alloc_free data cap align sizeof HA Hsz a live n heap a1 live1 true s2 o2 IV RQ C1 C2) as ->.
      destruct St as [_ ->]. rewrite (IH2 _ IV F3). reflexivity.
    + exfalso. cbn in C1. destruct (stl_allocate a sizeof n heap) as [a' [p src]]. injection C1 as <- <-.
      cbn in C2. destruct (stl_deallocate a' sizeof p n). discriminate.
  - exfalso. cbn in C1. destruct (stl_allocate a sizeof n heap) as [a' [p src]]. discriminate.
Qed.
