(** C41: consumer lists are bags. *)
From Coq Require Import List ZArith NArith Permutation Lia.
From Verif Require Import Outcome ConsumerModel ConsumerSpec ConsumerProofs.
Import ListNotations.

(** There is an abstract bag for the state after any history that stays below 2^32 insertions: the
    concrete history is a run of the abstract bag (insertions use handles that are not live, removals
    take out exactly the entry of the handle), and size, empty and iteration describe it. *)
Theorem C41_bag : forall V (h : list (cv_op V)) c,
  (N.of_nat (inserted h) <= 4294967296)%N -> cv_run cv_empty_vec h = Ok c ->
  exists b : bag V, bag_run [] h b /\ NoDup (handles b) /\
    cv_size c = Z.of_nat (length b) /\ (cv_is_empty c = true <-> b = []) /\
    exists l, cv_to_list c = Ok l /\ Permutation l (values b).
Proof.
  intros V h c B E. destruct (run_spec h cv_empty_vec c wf_empty) as [W R]; [cbn; lia|exact E|].
  exists (entries c). split; [exact R|]. split; [apply entries_from_nodup|].
  pose proof (wf_size c W) as S. split; [exact S|]. split.
  - unfold cv_is_empty. rewrite Z.eqb_eq, S. destruct (entries c); cbn; split; intros; try lia; try discriminate; reflexivity.
  - exists (values (entries c)). split; [apply to_list_spec|reflexivity].
Qed.
Print Assumptions C41_bag.
Example C41_bag_ex :
  let h := [OInsert 7; OInsert 8; ORemove 0%N; OInsert 9; OInsert 7; ORemove 1%N] in
  exists c, cv_run cv_empty_vec h = Ok c /\ cv_size c = 2%Z /\ cv_to_list c = Ok [9; 7].
Proof. eexists. split; [vm_compute; reflexivity|split; vm_compute; reflexivity]. Qed.

(** After any such history the next insertion succeeds with a fresh handle and keeps every other entry; a
    removal succeeds exactly for live handles (an assertion rejects the others). *)
Theorem C41_next_call : forall V (h : list (cv_op V)) c,
  (N.of_nat (inserted h) < 4294967296)%N -> cv_run cv_empty_vec h = Ok c ->
  exists b : bag V, bag_run [] h b /\
    (forall l, cv_to_list c = Ok l -> Permutation l (values b)) /\
    (forall v, exists c' hd b', cv_insert c v = Ok (c', hd) /\ bag_insert b v hd b' /\
        exists l, cv_to_list c' = Ok l /\ Permutation l (v :: values b)) /\
    (forall hd, (live b hd <-> exists c', cv_remove c hd = Ok c') /\
        (~ live b hd -> cv_remove c hd = Throws) /\
        (forall c', cv_remove c hd = Ok c' -> exists b', bag_remove b hd b' /\ cv_to_list c' = Ok (values b'))).
Proof.
  intros V h c B E. destruct (run_spec h cv_empty_vec c wf_empty) as [W R]; [cbn; lia|exact E|].
  pose proof (cells_bound_run h cv_empty_vec c E) as CB. cbn in CB.
  exists (entries c). split; [exact R|]. split; [|split].
  - intros l. rewrite to_list_spec. intros L; injection L as <-. reflexivity.
  - intros v. destruct (insert_spec c v W) as (c' & hd & E1 & W1 & I1); [lia|].
    exists c', hd, (entries c'). split; [exact E1|]. split; [exact I1|].
    exists (values (entries c')). split; [apply to_list_spec|]. destruct I1 as [_ b' P].
    unfold values. rewrite P. reflexivity.
  - intros hd. split; [|split].
    + split; [intros L; destruct (remove_spec c hd W L) as (c' & E1 & _); eauto|].
      intros (c' & E1). destruct (classic_live c hd) as [L|L]; [exact L|].
      rewrite (remove_dead c hd L) in E1. discriminate.
    + apply remove_dead.
    + intros c' E1. destruct (classic_live c hd) as [L|L].
      * destruct (remove_spec c hd W L) as (c'' & E2 & _ & R2). rewrite E2 in E1. injection E1 as <-.
        exists (entries c''). split; [exact R2|apply to_list_spec].
      * rewrite (remove_dead c hd L) in E1. discriminate.
Qed.
Print Assumptions C41_next_call.
Example C41_next_call_ex :
  let h := [OInsert 7; OInsert 8; ORemove 0%N] in
  exists c c', cv_run cv_empty_vec h = Ok c /\ cv_insert c 5 = Ok (c', 0%N) /\ cv_remove c 0 = Throws
    /\ cv_remove c 9 = Throws.
Proof. do 2 eexists. repeat split; vm_compute; reflexivity. Qed.

(** A freed slot is used again before the storage grows. *)
Theorem C41_reuse : forall V (h : list (cv_op V)) c v c' hd,
  (N.of_nat (inserted h) < 4294967296)%N -> cv_run cv_empty_vec h = Ok c -> freelist c <> [] ->
  cv_insert c v = Ok (c', hd) -> length (cells c') = length (cells c).
Proof.
  intros V h c v c' hd B E F I. destruct (run_spec h cv_empty_vec c wf_empty) as [W R]; [cbn; lia|exact E|].
  destruct (freelist c) as [|i f] eqn:Ef; [congruence|].
  destruct (insert_reuse c v i f W Ef) as (c1 & E1 & _ & _ & L). rewrite E1 in I. injection I as <- _. exact L.
Qed.
Print Assumptions C41_reuse.
Example C41_reuse_ex : exists c c', cv_run cv_empty_vec [OInsert 7; OInsert 8; ORemove 0%N] = Ok c
  /\ cv_insert c 5 = Ok (c', 0%N) /\ length (cells c) = 2 /\ length (cells c') = 2.
Proof. do 2 eexists. repeat split; vm_compute; reflexivity. Qed.

(** The bound is needed: free indices are stored in 32 bits, so with more than 2^32 cells a removal frees
    the wrong slot and size() no longer counts the entries. *)
Theorem C41_unbounded_refuted : exists (h : list (cv_op nat)) c l,
  cv_run cv_empty_vec h = Ok c /\ cv_to_list c = Ok l /\ cv_size c <> Z.of_nat (length l).
Proof. exact truncation_breaks_size. Qed.
Print Assumptions C41_unbounded_refuted.
