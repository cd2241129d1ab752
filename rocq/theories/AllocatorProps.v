(** C42: the arena allocator. *)
From Coq Require Import ZArith List Bool Lia.
From Verif Require Import AllocatorModel AllocatorSpec AllocatorProofs.
Import ListNotations.
Open Scope Z_scope.

(** After every history, whatever the order of the frees: live arena blocks are inside the buffer, aligned and
    pairwise disjoint. *)
Theorem C42_blocks : forall data cap align sizeof h a live ok,
  arena_ok data cap align -> 0 < sizeof -> Forall (request_ok data cap sizeof) h ->
  do_calls sizeof (arena_new data cap align, []) h = Some ((a, live), ok) ->
  blocks_ok data cap align sizeof live.
Proof.
  intros data cap align sizeof h a live ok HA Hs F E.
  destruct (inv_run data cap align sizeof HA Hs h _ _ _ (inv_new data cap align sizeof HA) F E) as [IV _].
  exact (inv_blocks data cap align sizeof HA Hs a live IV).
Qed.
Print Assumptions C42_blocks.
Example C42_blocks_ex :
  exists a live, do_calls 4 (arena_new 4096 64 8, [])
    [Alloc 3 90000; Alloc 5 90000; Free 1; Alloc 1 90000; Alloc 9 90000; Free 1; Alloc 2 90000] = Some ((a, live), true)
  /\ map b_ptr live = [4136; 90000; 4112].
Proof. do 2 eexists. split; vm_compute; reflexivity. Qed.

(** Every block goes back to the allocator it came from. *)
Theorem C42_returned_to_owner : forall data cap align sizeof h s ok,
  arena_ok data cap align -> 0 < sizeof -> Forall (request_ok data cap sizeof) h ->
  do_calls sizeof (arena_new data cap align, []) h = Some (s, ok) -> ok = true.
Proof.
  intros data cap align sizeof h s ok HA Hs F E.
  exact (proj2 (inv_run data cap align sizeof HA Hs h _ _ _ (inv_new data cap align sizeof HA) F E)).
Qed.
Print Assumptions C42_returned_to_owner.
Example C42_returned_to_owner_ex : exists s,
  do_calls 8 (arena_new 4096 32 8, []) [Alloc 3 90000; Alloc 5 90000; Free 0; Free 0] = Some (s, true).
Proof. eexists. vm_compute; reflexivity. Qed.

(** Under stack discipline the arena ends where it started: no byte is lost. *)
Theorem C42_lifo : forall data cap align sizeof h,
  arena_ok data cap align -> 0 < sizeof -> Forall (request_ok data cap sizeof) h -> lifo h ->
  do_calls sizeof (arena_new data cap align, []) h = Some ((arena_new data cap align, []), true)
  /\ arena_is_empty (arena_new data cap align) = true /\ arena_used_bytes (arena_new data cap align) = 0.
Proof.
  intros data cap align sizeof h HA Hs F L. split; [|split].
  - exact (lifo_run data cap align sizeof HA Hs h L _ (inv_new data cap align sizeof HA) F).
  - unfold arena_is_empty. cbn. apply Z.eqb_refl.
  - unfold arena_used_bytes. cbn. rewrite Z.sub_diag. reflexivity.
Qed.
Print Assumptions C42_lifo.
Example C42_lifo_ex : lifo [Alloc 3 90000; Alloc 2 90000; Free 0; Alloc 1 90000; Free 0; Free 0].
Proof.
  apply (lifo_pair 3 90000 [Alloc 2 90000; Free 0; Alloc 1 90000; Free 0] []); [|constructor].
  apply (lifo_pair 2 90000 [] [Alloc 1 90000; Free 0]); [constructor|].
  apply (lifo_pair 1 90000 [] []); constructor.
Qed.

(** Without the bound on the request the pointer comparison wraps: a request of 2^64 - 8 bytes succeeds, moves the top
    of the stack down and the next small request overlaps a live block. *)
Theorem C42_huge_request_refuted : exists h a live b1 b2 b3,
  arena_ok 4096 64 8 /\ do_calls 1 (arena_new 4096 64 8, []) h = Some ((a, live), true) /\
  live = [b1; b2; b3] /\ b_src b1 = FromArena /\ b_src b3 = FromArena /\ b_size b1 = 8 /\ b_size b3 = 16 /\
  ~ disjoint (b_ptr b1) (b_size b1) (b_ptr b3) (b_size b3).
Proof.
  exists [Alloc 16 90000; Alloc 18446744073709551608 90000; Alloc 8 90000].
  do 5 eexists. split; [|split; [vm_compute; reflexivity|split; [reflexivity|]]].
  - unfold arena_ok. repeat split; try lia. exists 512. reflexivity.
  - cbn. unfold disjoint. repeat split. lia.
Qed.
Print Assumptions C42_huge_request_refuted.
