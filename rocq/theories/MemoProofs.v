(** Any visitor gives the same results with and without a cache. *)
From Coq Require Import List ZArith Bool Lia.
From Verif Require Import Outcome ExprModel BuildModel MapModel.
Import ListNotations.

Section Visitor.
Context (I : impl) (visit : expr -> work) (P : expr -> Prop).

(** Everything a visit asks about is in [P], given the answers of the plain visits. *)
Fixpoint asks (w : work) : Prop :=
  match w with
  | Answer _ => True
  | Ask x f => P x /\ forall k d, run_plain visit k x = Ok d -> asks (f d)
  end.

Hypothesis Pvisit : forall e, P e -> asks (visit e).
Hypothesis Pkey : forall a b, P a -> P b -> key_eq I a b = true -> a = b.

Fixpoint go_plain (k : nat) (w : work) : outcome expr :=
  match w with Answer r => r | Ask x f => let* d := run_plain visit k x in go_plain k (f d) end.
Fixpoint go_cached (k : nat) (w : work) (c : list (expr * expr)) : outcome (expr * list (expr * expr)) :=
  match w with
  | Answer r => let* d := r in Ok (d, c)
  | Ask x f => let* d := run_cached I visit k x c in go_cached k (f (fst d)) (snd d)
  end.
Lemma plain_S k e : run_plain visit (S k) e = go_plain k (visit e).
Proof.
  cbn [run_plain]. set (w := visit e). clearbody w. induction w as [r|x f IH]; [reflexivity|].
  cbn [go_plain]. destruct (run_plain visit k x); cbn; auto.
Qed.
Lemma cached_S k e c : run_cached I visit (S k) e c =
  match lookup I e c with
  | Some d => Ok (d, c)
  | None => let* r := go_cached k (visit e) c in Ok (emplace I e (fst r) (snd r))
  end.
Proof.
  cbn [run_cached]. destruct (lookup I e c); [reflexivity|]. f_equal. clear. generalize c. set (w := visit e). clearbody w.
  induction w as [r|x f IH]; intros c0; [reflexivity|]. cbn [go_cached]. destruct (run_cached I visit k x c0) as [[d c1]| | | |]; cbn; auto.
Qed.

Lemma plain_mono k : forall e m, (k <= m)%nat -> run_plain visit k e <> NoFuel -> run_plain visit m e = run_plain visit k e.
Proof.
  induction k as [|k IH]; intros e m Hm H; [now elim H|]. destruct m as [|m]; [lia|]. rewrite plain_S in *.
  rewrite plain_S. revert H. generalize (visit e). induction w as [r|x f IHw]; [reflexivity|]. cbn [go_plain]. intros H.
  assert (A : run_plain visit k x <> NoFuel) by (intros A; rewrite A in H; now elim H).
  rewrite (IH x m) by (auto; lia). destruct (run_plain visit k x); cbn in *; auto.
Qed.

Definition valid (c : list (expr * expr)) : Prop :=
  Forall (fun kd => P (fst kd) /\ exists k, run_plain visit k (fst kd) = Ok (snd kd)) c.
Definition same (m : outcome (expr * list (expr * expr))) (p : outcome expr) : Prop :=
  match m with
  | Ok (d, c) => p = Ok d /\ valid c
  | Throws => p = Throws
  | Dies => p = Dies
  | UB => p = UB
  | NoFuel => p = NoFuel
  end.

Lemma valid_lookup c e d : valid c -> P e -> lookup I e c = Some d -> exists k, run_plain visit k e = Ok d.
Proof.
  intros Hc He H. induction Hc as [|[a d'] c [Ha Hd] _ IH]; [discriminate|]. cbn [lookup fst snd] in *.
  destruct (key_eq I a e) eqn:E; [|auto]. apply Pkey in E; auto. subst. injection H as <-. exact Hd.
Qed.
Lemma plain_det e k m d o : run_plain visit k e = Ok d -> run_plain visit m e = o -> o <> NoFuel -> o = Ok d.
Proof.
  intros A B N. destruct (Nat.le_ge_cases k m) as [L|L].
  - rewrite (plain_mono k e m L) in B; congruence.
  - rewrite (plain_mono m e k L) in A; congruence.
Qed.
Lemma valid_emplace c e d k : valid c -> P e -> run_plain visit k e = Ok d ->
  fst (emplace I e d c) = d /\ valid (snd (emplace I e d c)).
Proof.
  intros Hc He Hd. unfold emplace. destruct (lookup I e c) as [w|] eqn:E; cbn.
  - apply valid_lookup in E; auto. destruct E as [m Em]. split; auto.
    pose proof (plain_det e k m d (Ok w) Hd Em ltac:(discriminate)) as X. congruence.
  - split; auto. constructor; eauto.
Qed.

Lemma cached_of_plain k : forall e c, P e -> valid c -> run_plain visit k e <> NoFuel -> same (run_cached I visit k e c) (run_plain visit k e).
Proof.
  induction k as [|k IH]; intros e c He Hc H; [now elim H|]. rewrite cached_S.
  destruct (lookup I e c) as [d|] eqn:El.
  { apply valid_lookup in El; auto. destruct El as [m Em]. split; auto. eapply plain_det; eauto. }
  rewrite plain_S in H |- *. pose proof (Pvisit e He) as Ha.
  assert (G : forall w c, asks w -> valid c -> go_plain k w <> NoFuel -> same (go_cached k w c) (go_plain k w)).
  { clear - IH Pvisit. induction w as [r|x f IHw]; intros c Ha Hc H; cbn [go_plain go_cached] in *.
    - destruct r; cbn; auto.
    - destruct Ha as [Hx Hf]. assert (A : run_plain visit k x <> NoFuel) by (intros A; rewrite A in H; now elim H).
      pose proof (IH x c Hx Hc A) as S. destruct (run_cached I visit k x c) as [[d c1]| | | |]; cbn [same] in S.
      + destruct S as [S V]. pose proof (Hf k d S) as Hd. rewrite S in H |- *. cbn [bind fst snd] in *. apply IHw; auto.
      + rewrite S. reflexivity.
      + rewrite S. reflexivity.
      + rewrite S. reflexivity.
      + contradiction. }
  specialize (G (visit e) c Ha Hc H). pose proof (plain_S k e) as PS.
  destruct (go_cached k (visit e) c) as [[d c1]| | | |]; cbn [same bind fst snd] in *; auto.
  destruct G as [G V]. rewrite G in *. destruct (valid_emplace c1 e d (S k) V He PS) as [E1 E2].
  destruct (emplace I e d c1); cbn in *. subst. auto.
Qed.

Lemma plain_of_cached k : forall e c, P e -> valid c -> run_cached I visit k e c <> NoFuel ->
  exists m, same (run_cached I visit k e c) (run_plain visit m e).
Proof.
  induction k as [|k IH]; intros e c He Hc H; [now elim H|]. rewrite cached_S in *.
  destruct (lookup I e c) as [d|] eqn:El.
  { apply valid_lookup in El; auto. destruct El as [m Em]. exists m. split; auto. }
  pose proof (Pvisit e He) as Ha.
  assert (G : forall w c, asks w -> valid c -> go_cached k w c <> NoFuel -> exists m, same (go_cached k w c) (go_plain m w)).
  { clear - IH Pvisit. induction w as [r|x f IHw]; intros c Ha Hc H; cbn [go_plain go_cached] in *.
    - exists O. destruct r; cbn in *; auto.
    - destruct Ha as [Hx Hf].
      assert (A : run_cached I visit k x c <> NoFuel) by (intros A; rewrite A in H; now elim H).
      destruct (IH x c Hx Hc A) as [m Hm]. destruct (run_cached I visit k x c) as [[d c1]| | | |] eqn:Er; cbn [same bind fst snd] in *.
      + destruct Hm as [Hm V]. destruct (IHw d c1 (Hf m d Hm) V H) as [m2 Hm2]. exists (max m m2).
        rewrite (plain_mono m x (max m m2)) by (try lia; congruence). rewrite Hm. cbn [bind].
        assert (Mono : forall w, go_plain m2 w <> NoFuel -> go_plain (max m m2) w = go_plain m2 w).
        { clear. induction w as [r|x f IHw]; [reflexivity|]. cbn [go_plain]. intros H.
          assert (A : run_plain visit m2 x <> NoFuel) by (intros A; rewrite A in H; now elim H).
          rewrite (plain_mono m2 x (max m m2)) by (auto; lia). destruct (run_plain visit m2 x); cbn in *; auto. }
        rewrite Mono; [exact Hm2|]. intros N. rewrite N in Hm2. destruct (go_cached k (f d) c1) as [[? ?]| | | |]; cbn in Hm2; try discriminate.
        * destruct Hm2; discriminate.
        * now elim H.
      + exists m. rewrite Hm. reflexivity.
      + exists m. rewrite Hm. reflexivity.
      + exists m. rewrite Hm. reflexivity.
      + contradiction. }
  assert (N : go_cached k (visit e) c <> NoFuel) by (intros N; rewrite N in H; now elim H).
  destruct (G (visit e) c Ha Hc N) as [m Hm]. exists (S m). rewrite plain_S. pose proof (plain_S m e) as PS.
  destruct (go_cached k (visit e) c) as [[d c1]| | | |]; cbn [same bind fst snd] in *; auto.
  destruct Hm as [G2 V]. rewrite G2 in *. destruct (valid_emplace c1 e d (S m) V He PS) as [E1 E2].
  destruct (emplace I e d c1); cbn in *. subst. auto.
Qed.
End Visitor.
