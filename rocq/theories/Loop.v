(** Loops.  [iter_until p step s] runs at most [p] steps ([p] is binary, so a bound such as 2^64 costs
    nothing) and stops as soon as [step] returns a result or fails. *)
From Coq Require Import ZArith Lia.
From Verif Require Import Outcome.
Open Scope Z_scope.
Open Scope outcome_scope.

Section Loop.
  Context {S R : Type}.
  Variable step : S -> outcome (S + R).

  Fixpoint iter_until (p : positive) (s : S) : outcome (S + R) :=
    match p with
    | xH => step s
    | xO q => let* x := iter_until q s in
              match x with inl s' => iter_until q s' | inr r => Ok (inr r) end
    | xI q => let* x := step s in
              match x with
              | inl s1 => let* y := iter_until q s1 in
                          match y with inl s' => iter_until q s' | inr r => Ok (inr r) end
              | inr r => Ok (inr r)
              end
    end.

  (** More iterations than any loop over 64-bit state that makes progress can take. *)
  Definition loop_fuel : positive := 18446744073709551616.

  Definition loop (s : S) : outcome R :=
    let* x := iter_until loop_fuel s in
    match x with inl _ => NoFuel | inr r => Ok r end.

  (** Invariant and variant rule. *)
  Variable Inv : S -> Prop.
  Variable m : S -> Z.
  Variable Post : outcome R -> Prop.
  Hypothesis Hstep : forall s, Inv s ->
    match step s with
    | Ok (inl s') => Inv s' /\ 0 <= m s' < m s
    | Ok (inr r) => Post (Ok r)
    | Throws => Post Throws
    | Dies => Post Dies
    | UB => Post UB
    | NoFuel => Post NoFuel
    end.

  Lemma iter_until_rule p : forall s, Inv s ->
    match iter_until p s with
    | Ok (inl s') => Inv s' /\ 0 <= m s' <= m s - Z.pos p
    | Ok (inr r) => Post (Ok r)
    | Throws => Post Throws
    | Dies => Post Dies
    | UB => Post UB
    | NoFuel => Post NoFuel
    end.
  Proof.
    induction p as [q IH|q IH|]; intros s Hs; cbn [iter_until].
    - pose proof (Hstep s Hs) as H1. destruct (step s) as [[s1|r]| | | |]; cbn [bind]; try exact H1.
      destruct H1 as [Hs1 Hm1]. pose proof (IH s1 Hs1) as H2.
      destruct (iter_until q s1) as [[s2|r]| | | |]; cbn [bind]; try exact H2.
      destruct H2 as [Hs2 Hm2]. pose proof (IH s2 Hs2) as H3.
      destruct (iter_until q s2) as [[s3|r]| | | |]; try exact H3.
      destruct H3 as [Hs3 Hm3]. split; [exact Hs3|lia].
    - pose proof (IH s Hs) as H2.
      destruct (iter_until q s) as [[s2|r]| | | |]; cbn [bind]; try exact H2.
      destruct H2 as [Hs2 Hm2]. pose proof (IH s2 Hs2) as H3.
      destruct (iter_until q s2) as [[s3|r]| | | |]; try exact H3.
      destruct H3 as [Hs3 Hm3]. split; [exact Hs3|lia].
    - pose proof (Hstep s Hs) as H1. destruct (step s) as [[s1|r]| | | |]; cbn [bind]; try exact H1.
      destruct H1; split; [assumption|lia].
  Qed.

  Lemma loop_rule s : Inv s -> m s < Z.pos loop_fuel -> Post (loop s).
  Proof.
    intros Hs Hm. pose proof (iter_until_rule loop_fuel s Hs) as H. unfold loop.
    destruct (iter_until loop_fuel s) as [[s3|r]| | | |]; cbn [bind]; try exact H.
    destruct H; lia.
  Qed.
End Loop.
