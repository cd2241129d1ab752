(** C29: the search for common factors. *)
From Coq Require Import List Arith NArith Bool Lia.
From Verif Require Import Outcome FactorModel FactorSpec FactorProofs.
Import ListNotations.
Open Scope nat_scope.

(** For any table of at most 64 terms over at most 64 variables: the search succeeds; each factorization it returns
    consists of one to eight steps that take variables out of at least two terms each, which these variables do divide,
    no term being used by two steps; the score is the number of multiplications saved; the first one is a best one (highest score,
    then fewest steps); and there is one whenever some variable occurs in two terms. *)
Theorem C29_ranked_factorizations : forall terms num_vars branching,
  num_vars <= 64 -> length terms <= 64 ->
  exists facs, compute_ranked terms num_vars branching = Ok facs /\
    (forall f, In f facs -> factorization_ok terms num_vars f) /\
    (forall f0 rest f, facs = f0 :: rest -> In f rest ->
       f_score f < f_score f0 \/ f_score f = f_score f0 /\ length (f_steps f0) <= length (f_steps f)) /\
    (branching <> 0 -> factorable terms num_vars -> facs <> []).
Proof.
  intros terms nv bf H1 H2. destruct (compute_ranked_spec terms nv bf H1 H2) as (facs & E & F & B & N).
  exists facs. split; [assumption|]. split; [assumption|]. split; [|assumption].
  intros f0 rest f Ef Hf. specialize (B f0 rest f Ef Hf). apply better_false in B. lia.
Qed.
Print Assumptions C29_ranked_factorizations.
(** ab + ac + bd + cd (variables a b c d are bits 0 to 3). *)
Example C29_ranked_factorizations_ex :
  compute_ranked [3%N; 5%N; 10%N; 12%N] 4 4 =
  Ok [mkf [(1%N, 3%N); (8%N, 12%N)] 2; mkf [(2%N, 5%N); (4%N, 10%N)] 2].
Proof. vm_compute; reflexivity. Qed.

(** Conversely a factorization is only returned when some variable occurs in two terms. *)
Theorem C29_only_factorable : forall terms num_vars branching f facs,
  num_vars <= 64 -> length terms <= 64 ->
  compute_ranked terms num_vars branching = Ok (f :: facs) -> factorable terms num_vars.
Proof.
  intros terms nv bf f facs H1 H2 E. destruct (compute_ranked_spec terms nv bf H1 H2) as (facs' & E' & F & _).
  rewrite E in E'. injection E' as <-. destruct (F f (or_introl eq_refl)) as [Q1 _ Q2 _ _].
  destruct (f_steps f) as [|s t]; [congruence|]. destruct (Q2 s (or_introl eq_refl)) as [S1 S2 S3 S4 S5].
  destruct (nonzero_bit _ S1) as [v Hv].
  assert (ND : NoDup (members (snd s))) by (unfold members; apply NoDup_filter, seq_NoDup).
  assert (Hin : forall i, In i (members (snd s)) -> bit (snd s) i = true) by (unfold members; intros i Hi; now apply filter_In in Hi).
  remember (members (snd s)) as ms eqn:Ems. clear Ems. destruct ms as [|i [|j m]]; cbn in S2; try lia.
  assert (i <> j). { inversion ND as [|? ? N _]; subst. intros ->. apply N. now left. }
  pose proof (Hin i (or_introl eq_refl)) as Hi. pose proof (Hin j (or_intror (or_introl eq_refl))) as Hj.
  pose proof (S4 i Hi). pose proof (S4 j Hj). pose proof (S5 v i Hv Hi). pose proof (S5 v j Hv Hj).
  exists v. destruct (lt_dec i j); [exists i, j|exists j, i]; repeat split; auto; try lia; now apply S3.
Qed.
Print Assumptions C29_only_factorable.
Example C29_only_factorable_ex : compute_ranked [3%N; 12%N; 16%N] 5 4 = Ok [] /\ ~ factorable [3%N; 12%N; 16%N] 5.
Proof.
  split; [vm_compute; reflexivity|]. intros (v & i & j & H1 & H2 & H3 & H4). cbn in H2.
  do 5 (destruct v as [|v]; [destruct i as [|[|[|]]], j as [|[|[|]]]; cbn in *; try lia; discriminate|]). lia.
Qed.

(** Tables that are too large are rejected, not mishandled. *)
Theorem C29_too_large : forall terms num_vars branching,
  64 < num_vars \/ 64 < length terms -> compute_ranked terms num_vars branching = Throws.
Proof.
  intros terms nv bf H. unfold compute_ranked, MAX_VARS_OR_TERMS.
  destruct (Nat.leb_spec nv 64), (Nat.leb_spec (length terms) 64); cbn; lia || reflexivity.
Qed.
Print Assumptions C29_too_large.
Example C29_too_large_ex : compute_ranked (repeat 1%N 65) 1 4 = Throws.
Proof. vm_compute; reflexivity. Qed.

(** The terms left over are those that no step uses: with the steps being disjoint, every term is accounted for exactly once. *)
Theorem C29_unfactored_terms : forall f n i,
  bit (unfactored_terms f n) i = true <-> i < n /\ forall s, In s (f_steps f) -> bit (snd s) i = false.
Proof.
  intros f n i. unfold unfactored_terms.
  assert (H : forall l r, bit (fold_left (fun r (s : step) => N.ldiff r (snd s)) l r) i = true <->
                          bit r i = true /\ forall s, In s l -> bit (snd s) i = false).
  { induction l as [|s l IH]; intros r; cbn [fold_left].
    - split; [intros H; split; [assumption|intros s []]|tauto].
    - rewrite IH, bit_ldiff, Bool.andb_true_iff, Bool.negb_true_iff. split.
      + intros [[A B] C]. split; [assumption|]. intros x [<-|Hx]; auto.
      + intros [A B]. split; [split; [assumption|apply B; now left]|]. intros x Hx. apply B. now right. }
  rewrite H, bit_fill, Nat.ltb_lt. reflexivity.
Qed.
Print Assumptions C29_unfactored_terms.
Example C29_unfactored_terms_ex : unfactored_terms (mkf [(1%N, 3%N); (8%N, 12%N)] 2) 6 = 48%N.
Proof. vm_compute; reflexivity. Qed.
