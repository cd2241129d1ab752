(** C43: range utilities. *)
From Coq Require Import List Arith Bool Lia Permutation Sorted.
From Verif Require Import Outcome RangesModel RangesSpec RangesProofs.
Import ListNotations.
Open Scope nat_scope.

(** For every range in which equal elements are adjacent: the range up to the returned iterator holds every distinct element
    once, the extracted elements are the surplus copies, nothing is lost, and the rest of the range is moved-from. *)
Theorem C43_unique_and_extract : forall A (eqb : A -> A -> bool) (l : list A),
  (forall x y, eqb x y = true <-> x = y) -> grouped l ->
  exists kept dups, unique_and_extract_duplicates eqb l =
      Ok (map Some kept ++ repeat None (length dups), length kept, dups) /\
    Permutation (kept ++ dups) l /\ NoDup kept /\ (forall x, In x kept <-> In x l) /\
    (forall R, StronglySorted R l -> StronglySorted R kept /\ StronglySorted R dups).
Proof.
  intros A eqb l E G. destruct (ued_spec eqb l) as (u & o & c & H & Hc & Hu). exists u, o.
  split; [rewrite H, Hc; reflexivity|]. destruct l as [|a t].
  - destruct Hu as [-> ->]. cbn. repeat split; try tauto; constructor.
  - pose proof (ded_perm eqb t a) as P. pose proof (ded_nodup eqb E t a G) as N.
    pose proof (ded_in_o eqb E t a) as IO. pose proof (fun R => ded_sorted eqb R t a) as SS.
    destruct (ded eqb a t) as [u' o']. destruct Hu as [-> ->]. cbn in *.
    assert (P' : Permutation (a :: u' ++ o') (a :: t)) by now constructor.
    split; [exact P'|]. split; [exact N|]. split.
    + intros x. split.
      * intros [->|I]; [now left|]. apply (Permutation_in x P'). right. apply in_or_app. now left.
      * intros I. apply (Permutation_in x (Permutation_sym P')) in I. destruct I as [I|I]; [now left|].
        apply in_app_or in I. destruct I as [I|I]; [now right|]. destruct (IO x I); [now left|now right].
    + intros R S. inversion S as [|? ? S' F]; subst. destruct (SS R S') as [S1 S2]. split; [|exact S2].
      constructor; [exact S1|]. rewrite Forall_forall in *. intros x I. apply F.
      eapply Permutation_in; [exact P|]. apply in_or_app. now left.
Qed.
Print Assumptions C43_unique_and_extract.
Example C43_unique_and_extract_ex :
  unique_and_extract_duplicates Nat.eqb [1; 1; 2; 3; 3; 3; 5] =
  Ok ([Some 1; Some 2; Some 3; Some 5; None; None; None], 4, [1; 3; 3]).
Proof. vm_compute; reflexivity. Qed.

(** Sorted ranges qualify. *)
Theorem C43_sorted_is_grouped : forall A (R : A -> A -> Prop) (l : list A),
  (forall x y, R x y -> R y x -> x = y) -> StronglySorted R l -> grouped l.
Proof. intros A R l H. exact (sorted_grouped R H l). Qed.
Print Assumptions C43_sorted_is_grouped.
Example C43_sorted_is_grouped_ex : StronglySorted le [1; 1; 2; 3; 3] /\ (forall x y, x <= y -> y <= x -> x = y).
Proof. split; [|intros; lia]. repeat constructor; lia. Qed.

(** Iterating a bitset with ++it visits exactly the set bits, in increasing order. *)
Theorem C43_bitset_range : forall bits, visit_all bits (pre_inc bits) = Ok (set_bits bits).
Proof. exact visit_all_spec. Qed.
Print Assumptions C43_bitset_range.
Example C43_bitset_range_ex : let b := [false; true; false; false; true; true; false] in
  visit_all b (pre_inc b) = Ok [1; 4; 5].
Proof. vm_compute; reflexivity. Qed.

(** Iterating with it++ does not: it stops at clear bits as well. *)
Theorem C43_bitset_post_increment_refuted : exists bits l,
  visit_all bits post_inc = Ok l /\ l <> set_bits bits /\ exists i, In i l /\ nth i bits false = false.
Proof.
  exists [true; false; true; false], [0; 1; 2; 3]. split; [vm_compute; reflexivity|]. split; [vm_compute; discriminate|].
  exists 1. split; [cbn; tauto|reflexivity].
Qed.
Print Assumptions C43_bitset_post_increment_refuted.
