(** The search for the merge point finds where two flows join first. *)
From Coq Require Import List Arith Bool Lia.
From Verif Require Import Outcome IrModel CfgModel CfgSpec.
Import ListNotations.
Open Scope nat_scope.

Section Merge.
Variable next : nat -> list nat.
Notation reach := (reach next).
Notation avoids := (avoids next).

Lemma reach_end a x b : reach a x -> In b (next x) -> reach a b.
Proof. induction 1; intros; econstructor; eauto; constructor. Qed.
Lemma reach_trans a x b : reach a x -> reach x b -> reach a b.
Proof. induction 1; auto. intros. econstructor; eauto. Qed.
Lemma avoids_end m a x b : avoids m a x -> In b (next x) -> b <> m -> avoids m a b.
Proof. induction 1; intros; eapply avoids_next; eauto. apply avoids_here; auto. Qed.

Lemma colour_in b c seen : colour_of b seen = Some c -> In (b, c) seen.
Proof. induction seen as [|[x d] t IH]; cbn; [discriminate|]. destruct (Nat.eqb_spec x b); [intros H; injection H as ->; subst; auto|auto]. Qed.
Lemma colour_none b c seen : colour_of b seen = None -> ~ In (b, c) seen.
Proof. induction seen as [|[x d] t IH]; cbn; [auto|]. destruct (Nat.eqb_spec x b); [discriminate|]. intros H [E|E]; [congruence|]. exact (IH H E). Qed.

Section Join.
Variables l r m : nat.
Hypothesis J : joins next l r m.
Definition start (c : bool) : nat := if c then l else r.

(** The entries of a colour before the merge point was seen in that colour are those that avoid it. *)
Definition entry (seen : list (nat * bool)) (e : nat * bool) : Prop :=
  reach (start (snd e)) (fst e) /\
  (avoids m (start (snd e)) (fst e) \/ fst e = m \/ colour_of m seen = Some (snd e)).
Record inv (queue seen : list (nat * bool)) : Prop := {
  i_queue : Forall (entry seen) queue;
  i_seen : Forall (entry seen) seen;
  i_once : forall b c d, In (b, c) seen -> In (b, d) seen -> c = d;
  i_roots : forall c, In (start c, c) (queue ++ seen);
  i_closed : forall b c x, In (b, c) seen -> In x (next b) -> In (x, c) (queue ++ seen)
}.

Lemma entry_more seen e b c : colour_of b seen = None -> entry seen e -> entry ((b, c) :: seen) e.
Proof.
  intros N [R [A|[A|A]]]; split; auto. right; right. cbn. destruct (Nat.eqb_spec b m); [subst; congruence|auto].
Qed.

Lemma children_entry seen b c : colour_of b seen = Some c -> entry seen (b, c) -> Forall (entry seen) (map (fun x => (x, c)) (next b)).
Proof.
  intros Hb [R A]. cbn [fst snd] in *. rewrite Forall_map, Forall_forall. intros x Hx. split; cbn [fst snd]; [eapply reach_end; eauto|].
  destruct (Nat.eq_dec x m) as [->|N]; auto. destruct A as [A|[->|A]]; auto. left. eapply avoids_end; eauto.
Qed.

Lemma seen_both b : reach l b -> reach r b -> forall c, ~ avoids m (start c) b.
Proof. intros A B c. destruct J as (_ & _ & H). specialize (H b A B). destruct c; cbn; tauto. Qed.

Lemma merge_sound fuel : forall queue seen o, inv queue seen -> merge_loop fuel next queue seen = o -> o = NoFuel \/ o = Ok m.
Proof.
  induction fuel as [|fuel IH]; intros queue seen o [H1 H2 H3 H4 H5] H; cbn [merge_loop] in H; [auto|].
  destruct queue as [|[b c] q].
  - exfalso. cbn [app] in *.
    assert (K : forall c a b, reach a b -> In (a, c) seen -> In (b, c) seen).
    { intros c a b R. induction R; auto. intros Ha. apply IHR. eapply H5; eauto. }
    destruct J as (Jl & Jr & _). pose proof (K true _ _ Jl (H4 true)). pose proof (K false _ _ Jr (H4 false)). pose proof (H3 _ _ _ H0 H6). discriminate.
  - destruct (colour_of b seen) as [d|] eqn:Hb.
    + destruct (Bool.eqb d c) eqn:E.
      * apply eqb_prop in E. subst d. eapply IH; [|exact H]. constructor; auto.
        -- apply Forall_app. split; [exact (Forall_inv_tail H1)|]. apply children_entry; auto. exact (Forall_inv H1).
        -- intros x. specialize (H4 x). rewrite !in_app_iff in *. destruct H4 as [[E|E]|E]; auto. injection E as -> ->. right. now apply colour_in.
        -- intros x y z Hx Hy. specialize (H5 x y z Hx Hy). rewrite !in_app_iff in *. destruct H5 as [[E|E]|E]; auto. injection E as -> ->. right. now apply colour_in.
      * right. subst o. f_equal. apply eqb_false_iff in E.
        destruct (Nat.eq_dec b m) as [|N]; auto. exfalso. apply colour_in in Hb.
        pose proof (Forall_inv H1) as [R1 A1]. rewrite Forall_forall in H2. pose proof (H2 _ Hb) as [R2 A2]. cbn [fst snd] in *.
        assert (Nb : forall x, ~ avoids m (start x) b) by (apply seen_both; destruct c, d; cbn in *; congruence).
        destruct A1 as [A1|[A1|A1]]; [exact (Nb _ A1)|auto|]. destruct A2 as [A2|[A2|A2]]; [exact (Nb _ A2)|auto|]. congruence.
    + assert (He : entry ((b, c) :: seen) (b, c)) by (apply entry_more; auto; exact (Forall_inv H1)).
      assert (Hc : colour_of b ((b, c) :: seen) = Some c) by (cbn; now rewrite Nat.eqb_refl).
      eapply IH; [|exact H]. constructor.
      * apply Forall_app. split; [|apply children_entry; auto]. eapply Forall_impl; [|exact (Forall_inv_tail H1)]. intros; now apply entry_more.
      * constructor; auto. eapply Forall_impl; [|exact H2]. intros; now apply entry_more.
      * intros x y z [E1|E1] [E2|E2]; [congruence| | |eauto]; exfalso.
        -- injection E1 as -> ->. exact (colour_none _ z _ Hb E2).
        -- injection E2 as -> ->. exact (colour_none _ y _ Hb E1).
      * intros x. specialize (H4 x). rewrite !in_app_iff in *. cbn. destruct H4 as [[E|E]|E]; auto.
      * intros x y z [E|Hx] Hy; rewrite !in_app_iff; cbn.
        -- injection E as -> ->. left; right. apply in_map_iff. eauto.
        -- specialize (H5 x y z Hx Hy). rewrite !in_app_iff in H5. destruct H5 as [[E|E]|E]; auto.
Qed.

Lemma inv_start : inv [(l, true); (r, false)] [].
Proof.
  constructor; auto; try (intros; contradiction).
  - assert (E : forall c, entry [] (start c, c)).
    { intros c. split; cbn [fst snd]; [constructor|]. destruct (Nat.eq_dec (start c) m); auto. left. now apply avoids_here. }
    constructor; [exact (E true)|constructor; [exact (E false)|constructor]].
  - intros [|]; cbn; auto.
Qed.

Lemma find_merge_sound fuel : find_merge_point fuel next l r = NoFuel \/ find_merge_point fuel next l r = Ok m.
Proof. eapply merge_sound; [exact inv_start|reflexivity]. Qed.
End Join.

(** Without cycles the search ends. *)
Section Ends.
Variable rank : nat -> nat.
Variable D : nat.
Hypothesis Hrank : forall a x, In x (next a) -> rank x < rank a.
Hypothesis Hdeg : forall a, length (next a) <= D.

Definition load (b : nat) : nat := S D ^ S (rank b).
Definition loads (q : list (nat * bool)) : nat := list_sum (map (fun e => load (fst e)) q).
Lemma loads_app p q : loads (p ++ q) = loads p + loads q.
Proof. unfold loads. now rewrite map_app, list_sum_app. Qed.
Lemma load_children b c : loads (map (fun x => (x, c)) (next b)) < load b.
Proof.
  assert (H : forall k, (forall x, In x k -> rank x < rank b) -> loads (map (fun x => (x, c)) k) <= length k * S D ^ rank b).
  { induction k as [|x k IH]; intros Hk; [cbn; lia|]. change (loads (map (fun x => (x, c)) (x :: k))) with (load x + loads (map (fun x => (x, c)) k)).
    assert (load x <= S D ^ rank b) by (unfold load; apply Nat.pow_le_mono_r; [lia|]; apply Hk; left; auto).
    assert (loads (map (fun x => (x, c)) k) <= length k * S D ^ rank b) by (apply IH; intros; apply Hk; right; auto). cbn [length]. lia. }
  specialize (H (next b) (Hrank b)). specialize (Hdeg b). unfold load. rewrite Nat.pow_succ_r'. assert (0 < S D ^ rank b) by (apply Nat.neq_0_lt_0, Nat.pow_nonzero; lia). nia.
Qed.
Lemma load_pos b : 0 < load b.
Proof. unfold load. apply Nat.neq_0_lt_0, Nat.pow_nonzero. lia. Qed.

Lemma merge_ends fuel : forall queue seen, loads queue < fuel -> merge_loop fuel next queue seen <> NoFuel.
Proof.
  induction fuel as [|fuel IH]; intros queue seen Hf; [lia|]. cbn [merge_loop]. destruct queue as [|[b c] q]; [discriminate|].
  assert (loads (q ++ map (fun x => (x, c)) (next b)) < fuel).
  { rewrite loads_app. change (loads ((b, c) :: q)) with (load b + loads q) in Hf. pose proof (load_children b c). lia. }
  destruct (colour_of b seen) as [d|]; [|auto]. destruct (Bool.eqb d c); [auto|discriminate].
Qed.
End Ends.

Lemma merge_mono fuel : forall k queue seen, fuel <= k -> merge_loop fuel next queue seen <> NoFuel -> merge_loop k next queue seen = merge_loop fuel next queue seen.
Proof.
  induction fuel as [|fuel IH]; intros k queue seen L N; [cbn in N; congruence|]. destruct k as [|k]; [lia|]. cbn [merge_loop] in *.
  destruct queue as [|[b c] q]; auto. destruct (colour_of b seen) as [d|]; [|apply IH; auto; lia]. destruct (Bool.eqb d c); [apply IH; auto; lia|auto].
Qed.

(** ** Structured control flow *)
(** From inside a region, what is reached without going through the block it leaves to is inside. *)
Lemma region_start b k bs : region next b k bs -> In b bs \/ k = Some b.
Proof. destruct 1; cbn; auto. Qed.
Lemma region_inside b k bs : region next b k bs -> forall a x, In a bs -> In x (next a) -> In x bs \/ k = Some x.
Proof.
  induction 1 as [m|b E|b x k bs E H IH N Nk|b l r j k bl br bj E Hl IHl Hr IHr Hj IHj Inj ND Nm]; intros a y Ha Hy.
  - contradiction.
  - destruct Ha as [<-|[]]. rewrite E in Hy. contradiction.
  - destruct Ha as [<-|Ha].
    + rewrite E in Hy. destruct Hy as [<-|[]]. destruct (region_start _ _ _ H); [left; right|]; auto.
    + destruct (IH _ _ Ha Hy); [left; right|]; auto.
  - cbn [In]. rewrite !in_app_iff in *. destruct Ha as [<-|Ha].
    + rewrite E in Hy. destruct Hy as [<-|[<-|[]]].
      * destruct (region_start _ _ _ Hl) as [H|H]; auto. injection H as ->. auto.
      * destruct (region_start _ _ _ Hr) as [H|H]; auto. injection H as ->. auto.
    + rewrite !in_app_iff in Ha. destruct Ha as [Ha|[Ha|Ha]].
      * destruct (IHl _ _ Ha Hy) as [H|H]; auto. injection H as ->. auto.
      * destruct (IHr _ _ Ha Hy) as [H|H]; auto. injection H as ->. auto.
      * destruct (IHj _ _ Ha Hy); auto.
Qed.
Lemma region_avoids b m bs : region next b (Some m) bs -> forall x, avoids m b x -> In x bs.
Proof.
  intros H. assert (K : forall a x, avoids m a x -> In a bs -> In x bs).
  { intros a x A. induction A as [a|a y x N Hy A IH]; auto. intros Ha. apply IH. destruct (region_inside _ _ _ H _ _ Ha Hy) as [|E]; auto.
    injection E as ->. inversion A; congruence. }
  intros x A. apply (K b x A). destruct (region_start _ _ _ H) as [|E]; auto. injection E as ->. inversion A; congruence.
Qed.
Lemma region_reaches b m bs : region next b (Some m) bs -> reach b m.
Proof.
  remember (Some m) as k eqn:Ek. intros H. revert m Ek. induction H; intros m' Ek; try discriminate.
  - injection Ek as ->. constructor.
  - eapply reach_next; [rewrite H; left; auto|]. auto.
  - eapply reach_trans; [|exact (IHregion3 _ Ek)]. eapply reach_next; [rewrite H; left; auto|]. auto.
Qed.
(** What is reached from a region and is not in it is reached through the block it leaves to. *)
Lemma region_through b m bs x : region next b (Some m) bs -> reach b x -> In x bs \/ reach m x.
Proof.
  intros H R. assert (K : forall a x, reach a x -> In a bs -> In x bs \/ reach m x).
  { clear x R. intros a x R. induction R as [a|a y x Hy R IH]; auto. intros Ha. destruct (region_inside _ _ _ H _ _ Ha Hy) as [Hi|E]; auto.
    injection E as ->. auto. }
  destruct (region_start _ _ _ H) as [Hb|E]; eauto. injection E as ->. auto.
Qed.

Lemma region_block_reaches b m bs : region next b (Some m) bs -> forall x, In x bs -> reach x m.
Proof.
  remember (Some m) as k eqn:Ek. intros H. revert m Ek. induction H as [m0|b E|b x k bs E H IH N Nk|b l r j k bl br bj E Hl IHl Hr IHr Hj IHj Inj ND Nm]; intros m Ek y Hy; try discriminate.
  - contradiction.
  - subst k. destruct Hy as [<-|Hy]; [|eauto]. eapply reach_next; [rewrite E; left; auto|]. eapply region_reaches; eauto.
  - subst k. pose proof (region_reaches _ _ _ Hj) as Rj. cbn [In] in Hy. rewrite !in_app_iff in Hy. destruct Hy as [<-|[Hy|[Hy|Hy]]].
    + eapply reach_next; [rewrite E; left; auto|]. eapply reach_trans; [eapply region_reaches; eauto|exact Rj].
    + eapply reach_trans; [eapply IHl; eauto|exact Rj].
    + eapply reach_trans; [eapply IHr; eauto|exact Rj].
    + eauto.
Qed.
Lemma acyclic_reach a b : acyclic next -> reach a b -> reach b a -> a = b.
Proof.
  intros [rank Hr]. assert (K : forall x y, reach x y -> x = y \/ rank y < rank x).
  { induction 1 as [|x z y Hz R IH]; auto. right. apply Hr in Hz. destruct IH as [->|]; lia. }
  intros A B. destruct (K _ _ A); auto. destruct (K _ _ B); [congruence|lia].
Qed.

(** The branch of a region joins at its merge block. *)
Lemma region_joins b l r j bl br bj : next b = [l; r] -> region next l (Some j) bl -> region next r (Some j) br ->
  NoDup (b :: bl ++ br ++ bj) -> In j bj -> acyclic next ->
  joins next l r j.
Proof.
  intros E Hl Hr ND Hj Ac.
  assert (Nj : ~ In j (bl ++ br)).
  { inversion ND as [|? ? _ ND']; subst. rewrite app_assoc in ND'. revert ND' Hj. generalize (bl ++ br). clear. induction l as [|y t IH]; intros ND Hj; [auto|].
    inversion ND; subst. intros [->|H]; [apply H1; rewrite in_app_iff; auto|]. exact (IH H2 Hj H). }
  rewrite in_app_iff in Nj.
  assert (Back : forall x, reach j x -> ~ In x bl /\ ~ In x br).
  { intros x Hx. split; intros Hin.
    - pose proof (region_block_reaches _ _ _ Hl _ Hin) as B. rewrite (acyclic_reach _ _ Ac Hx B) in Nj. tauto.
    - pose proof (region_block_reaches _ _ _ Hr _ Hin) as B. rewrite (acyclic_reach _ _ Ac Hx B) in Nj. tauto. }
  split; [eapply region_reaches; eauto|]. split; [eapply region_reaches; eauto|].
  intros x Rl Rr. inversion ND as [|? ? _ ND']; subst.
  assert (Dis : In x bl -> In x br -> False).
  { intros A B. revert A B ND'. clear. induction bl as [|y t IH]; intros A B ND; [contradiction|].
    inversion ND; subst. destruct A as [->|A]; [apply H1; rewrite !in_app_iff; auto|]. apply IH; auto. }
  split; intros A.
  - pose proof (region_avoids _ _ _ Hl _ A) as Hin. destruct (region_through _ _ _ _ Hr Rr) as [H|H]; [auto|]. destruct (Back _ H). auto.
  - pose proof (region_avoids _ _ _ Hr _ A) as Hin. destruct (region_through _ _ _ _ Hl Rl) as [H|H]; [auto|]. destruct (Back _ H). auto.
Qed.
End Merge.
