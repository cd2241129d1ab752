From Coq Require Import List Arith Bool Lia Permutation Sorted.
From Verif Require Import Outcome RangesModel RangesSpec.
Import ListNotations.
Open Scope nat_scope.

Section Unique.
  Context {A : Type} (eqb : A -> A -> bool).
  Hypothesis eqb_spec : forall x y, eqb x y = true <-> x = y.

  (** Pure description: last kept element [r], rest of the input. *)
  Fixpoint ded (r : A) (rest : list A) : list A * list A :=
    match rest with
    | [] => ([], [])
    | f :: t => if eqb r f then let (u, o) := ded r t in (u, f :: o)
                else let (u, o) := ded f t in (f :: u, o)
    end.

  Lemma put_app (l1 : list (option A)) o l2 x : put (l1 ++ o :: l2) (length l1) x = l1 ++ x :: l2.
  Proof. induction l1; cbn; congruence. Qed.

  Lemma get_app (l1 : list (option A)) a l2 n : length l1 = n -> get (l1 ++ Some a :: l2) n = Ok a.
  Proof. intros <-. unfold get. rewrite nth_error_app2, Nat.sub_diag by lia. reflexivity. Qed.

  Lemma repeat_snoc {B} (x : B) d : repeat x d ++ [x] = x :: repeat x d.
  Proof. induction d; cbn; congruence. Qed.

  Lemma ued_loop_spec rest : forall U r d out,
    ued_loop eqb (length rest) (map Some U ++ Some r :: repeat None d ++ map Some rest) (length U) (length U + 1 + d) out
    = let (u, o) := ded r rest in
      Ok (map Some (U ++ r :: u) ++ repeat None (d + length o), length U + length u, out ++ o).
  Proof.
    induction rest as [|f t IH]; intros U r d out; cbn [ued_loop length map].
    - cbn [ded]. rewrite !app_nil_r, !Nat.add_0_r, map_app. cbn [map]. rewrite <- app_assoc. reflexivity.
    - rewrite (get_app (map Some U)) by apply map_length. cbn [bind].
      assert (E : map Some U ++ Some r :: repeat None d ++ Some f :: map Some t =
                  (map Some U ++ Some r :: repeat None d) ++ Some f :: map Some t).
      { rewrite <- app_assoc. reflexivity. }
      assert (Ln : length (map (@Some A) U ++ Some r :: repeat None d) = length U + 1 + d).
      { rewrite app_length, map_length. cbn. rewrite repeat_length. lia. }
      rewrite E, (get_app _ f _ _ Ln). cbn [bind]. cbn [ded].
      destruct (eqb r f) eqn:Er.
      + rewrite <- Ln at 1. rewrite put_app. rewrite <- app_assoc. cbn [app].
        replace (repeat None d ++ None :: map Some t) with (repeat (@None A) (S d) ++ map Some t).
        2:{ cbn [repeat]. rewrite <- repeat_snoc, <- app_assoc. reflexivity. }
        replace (S (length U + 1 + d)) with (length U + 1 + S d) by lia.
        rewrite IH. destruct (ded r t) as [u o]. rewrite <- app_assoc. cbn [app length].
        replace (S d + length o) with (d + S (length o)) by lia. reflexivity.
      + assert (G : (let l := if S (length U) =? length U + 1 + d
             then (map Some U ++ Some r :: repeat None d) ++ Some f :: map Some t
             else put (put ((map Some U ++ Some r :: repeat None d) ++ Some f :: map Some t) (length U + 1 + d) None) (S (length U)) (Some f)
             in l) = map Some (U ++ [r]) ++ Some f :: repeat None d ++ map Some t).
        { cbv zeta. rewrite map_app. cbn [map]. destruct d as [|d].
          - replace (S (length U) =? length U + 1 + 0) with true by (symmetry; apply Nat.eqb_eq; lia). reflexivity.
          - replace (S (length U) =? length U + 1 + S d) with false by (symmetry; apply Nat.eqb_neq; lia).
            rewrite <- Ln at 1. rewrite put_app. cbn [repeat].
            replace ((map Some U ++ Some r :: None :: repeat None d) ++ None :: map Some t)
              with ((map Some U ++ [Some r]) ++ None :: repeat (@None A) d ++ None :: map Some t)
              by (rewrite <- !app_assoc; reflexivity).
            replace (S (length U)) with (length (map (@Some A) U ++ [Some r])) by (rewrite app_length, map_length; cbn; lia).
            rewrite put_app. do 2 f_equal.
            change (None :: repeat None d ++ map Some t) with ((None :: repeat (@None A) d) ++ map Some t).
            rewrite <- repeat_snoc, <- app_assoc. reflexivity. }
        cbv zeta in G. cbv zeta. etransitivity; [exact (f_equal (fun l => ued_loop eqb (length t) l (S (length U)) (S (length U + 1 + d)) out) G)|].
        replace (S (length U)) with (length (U ++ [r])) by (rewrite app_length; cbn; lia).
        replace (S (length U + 1 + d)) with (length (U ++ [r]) + 1 + d) by (rewrite app_length; cbn; lia).
        rewrite IH. destruct (ded f t) as [u o]. rewrite <- app_assoc, app_length. cbn [app length].
        do 3 f_equal. lia.
  Qed.

  Lemma ued_spec l : exists u o c, unique_and_extract_duplicates eqb l = Ok (c, length u, o) /\
    c = map Some u ++ repeat None (length o) /\
    match l with [] => u = [] /\ o = [] | a :: t => let (u', o') := ded a t in u = a :: u' /\ o = o' end.
  Proof.
    destruct l as [|a t]; cbn.
    - exists [], [], []. auto.
    - pose proof (ued_loop_spec t [] a 0 []) as H. cbn in H. rewrite H. clear H.
      destruct (ded a t) as [u o]. cbn. exists (a :: u), o. eexists. split; [reflexivity|]. auto.
  Qed.

  Lemma ded_perm rest : forall r, let (u, o) := ded r rest in Permutation (u ++ o) rest.
  Proof.
    induction rest as [|f t IH]; intros r; cbn; [constructor|].
    destruct (eqb r f).
    - specialize (IH r). destruct (ded r t) as [u o]. rewrite <- Permutation_middle. now constructor.
    - specialize (IH f). destruct (ded f t) as [u o]. cbn. now constructor.
  Qed.

  Lemma ded_in_o rest : forall r x, In x (snd (ded r rest)) -> x = r \/ In x (fst (ded r rest)).
  Proof.
    induction rest as [|f t IH]; intros r x; cbn; [tauto|].
    destruct (eqb r f) eqn:E.
    - specialize (IH r x). destruct (ded r t) as [u o]. cbn in *. apply eqb_spec in E. subst. intuition.
    - specialize (IH f x). destruct (ded f t) as [u o]. cbn in *. intuition.
  Qed.

  Lemma grouped_tail (a : A) t : grouped (a :: t) -> grouped t.
  Proof. intros G l1 l2 l3 x E. apply (G (a :: l1) l2 l3 x). now rewrite E. Qed.
  Lemma grouped_second (a b : A) t : grouped (a :: b :: t) -> a <> b -> ~ In a t.
  Proof.
    intros G N I. apply in_split in I. destruct I as (l2 & l3 & ->).
    apply N. symmetry. apply (G [] (b :: l2) l3 a); [reflexivity|now left].
  Qed.
  Lemma grouped_skip (a : A) t : grouped (a :: a :: t) -> grouped (a :: t).
  Proof. apply grouped_tail. Qed.

  Lemma ded_nodup rest : forall r, grouped (r :: rest) -> NoDup (r :: fst (ded r rest)).
  Proof.
    induction rest as [|f t IH]; intros r G; cbn.
    - constructor; [tauto|constructor].
    - destruct (eqb r f) eqn:E.
      + apply eqb_spec in E. subst. specialize (IH f (grouped_skip _ _ G)). destruct (ded f t) as [u o]. exact IH.
      + assert (N : r <> f) by (intros ->; rewrite (proj2 (eqb_spec f f) eq_refl) in E; discriminate).
        specialize (IH f (grouped_tail _ _ G)). pose proof (ded_perm t f) as P. destruct (ded f t) as [u o]. cbn in *.
        constructor; [|exact IH]. intros [I|I]; [congruence|].
        apply (grouped_second _ _ _ G N). eapply Permutation_in; [exact P|]. apply in_or_app. now left.
  Qed.

  Lemma ded_sorted (R : A -> A -> Prop) rest : forall r, StronglySorted R rest ->
    StronglySorted R (fst (ded r rest)) /\ StronglySorted R (snd (ded r rest)).
  Proof.
    induction rest as [|f t IH]; intros r S; cbn; [split; constructor|].
    inversion S as [|? ? S' F]; subst.
    assert (G : forall q x, In x (fst (ded q t)) \/ In x (snd (ded q t)) -> R f x).
    { intros q x I. rewrite Forall_forall in F. apply F. pose proof (ded_perm t q) as P.
      destruct (ded q t) as [u o]. cbn in I. eapply Permutation_in; [exact P|]. apply in_or_app. tauto. }
    destruct (eqb r f).
    - specialize (IH r S'). specialize (G r). destruct (ded r t) as [u o]. cbn in *. split; [tauto|].
      constructor; [tauto|]. apply Forall_forall. auto.
    - specialize (IH f S'). specialize (G f). destruct (ded f t) as [u o]. cbn in *. split; [|tauto].
      constructor; [tauto|]. apply Forall_forall. auto.
  Qed.

  Lemma sorted_grouped (R : A -> A -> Prop) : (forall x y, R x y -> R y x -> x = y) -> forall l, StronglySorted R l -> grouped l.
  Proof.
    intros AS l S l1. revert l S. induction l1 as [|a l1 IH]; intros l S l2 l3 x E y I.
    - subst l. cbn in S. inversion S as [|? ? S' F]; subst. rewrite Forall_forall in F.
      assert (R x y) by (apply F, in_or_app; now left).
      clear F S. revert I S'. induction l2 as [|z l2 IH]; cbn; [tauto|].
      intros [->|I] S'; inversion S' as [|? ? S'' F]; subst; [|auto].
      rewrite Forall_forall in F. apply AS; [|assumption]. apply F, in_or_app. right. now left.
    - subst l. inversion S; subst. eapply IH; [eassumption|reflexivity|exact I].
  Qed.
End Unique.

Section Remove.
  Context {A S : Type}.
  Lemma reverse_remove_if_pure (p : A -> bool) (l : list A) (s : S) :
    reverse_remove_if (fun s a => (s, p a)) l s = (filter (fun a => negb (p a)) l, s).
  Proof. induction l as [|a t IH]; cbn; [reflexivity|]. rewrite IH. destruct (p a); reflexivity. Qed.
End Remove.

Section Bits.
  Variable bits : list bool.

  Lemma advance_spec n : forall pos, n = length bits - pos ->
    let q := advance bits n pos in
    pos <= q /\ (forall i, pos <= i < q -> nth i bits false = false) /\
    (q < length bits -> nth q bits false = true) /\ (pos <= length bits -> q <= length bits) .
  Proof.
    induction n as [|n IH]; intros pos En; cbv zeta; cbn [advance].
    - split; [lia|]. split; [intros; lia|]. split; [intros; lia|lia].
    - destruct (Nat.ltb_spec pos (length bits)) as [L|L]; cbn [andb]; [|lia].
      destruct (nth pos bits false) eqn:E; cbn [negb].
      + split; [lia|]. split; [intros; lia|]. split; [auto|lia].
      + destruct (IH (S pos) ltac:(lia)) as (Q1 & Q2 & Q3 & Q4). split; [lia|]. split; [|split; [exact Q3|lia]].
        intros i Hi. destruct (Nat.eq_dec i pos) as [->|]; [exact E|apply Q2; lia].
  Qed.

  Lemma bits_end_eq : bits_end bits = length bits.
  Proof. unfold bits_end, it_at. rewrite Nat.sub_diag. reflexivity. Qed.

  Lemma filter_none a n : (forall i, a <= i < a + n -> nth i bits false = false) ->
    filter (fun i => nth i bits false) (seq a n) = [].
  Proof.
    revert a; induction n as [|n IH]; intros a H; cbn; [reflexivity|].
    rewrite (H a ltac:(lia)). apply IH. intros; apply H; lia.
  Qed.

  Lemma visit_spec fuel : forall p, p <= length bits -> length bits - it_at bits p < fuel ->
    visit bits (pre_inc bits) fuel (it_at bits p) = Ok (filter (fun i => nth i bits false) (seq p (length bits - p))).
  Proof.
    induction fuel as [|fuel IH]; intros p Hp Hf; [lia|].
    unfold it_at in *. destruct (advance_spec (length bits - p) p eq_refl) as (Q1 & Q2 & Q3 & Q4).
    set (q := advance bits (length bits - p) p) in *. specialize (Q4 Hp).
    replace (length bits - p) with ((q - p) + (length bits - q)) by lia.
    rewrite seq_app, filter_app, filter_none by (intros; apply Q2; lia). cbn [app].
    replace (p + (q - p)) with q by lia.
    cbn [visit]. rewrite bits_end_eq. destruct (Nat.eqb_spec q (length bits)) as [E|E].
    - rewrite E, Nat.sub_diag. reflexivity.
    - change (pre_inc bits q) with (advance bits (length bits - S q) (S q)). rewrite IH; [|lia|].
      + cbn [bind]. replace (length bits - q) with (S (length bits - S q)) by lia. cbn [seq filter].
        rewrite Q3 by lia. reflexivity.
      + unfold it_at. destruct (advance_spec (length bits - S q) (S q) eq_refl) as (R1 & _). lia.
  Qed.

  Lemma visit_all_spec : visit_all bits (pre_inc bits) = Ok (set_bits bits).
  Proof.
    unfold visit_all, bits_begin, set_bits. rewrite visit_spec; [now rewrite Nat.sub_0_r|lia|lia].
  Qed.
End Bits.
