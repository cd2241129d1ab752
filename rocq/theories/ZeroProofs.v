(** Graphs whose values are all of the first block. *)
From Coq Require Import String List Arith Bool.
From Verif Require Import Outcome IrModel.
Import ListNotations.
Open Scope nat_scope.

Definition zero (g : graph) : Prop := forall v, parent g v = 0.

Lemma zero_set g n x : zero g -> v_parent x = 0 -> zero (set_val g n x).
Proof. intros Z E v. unfold parent, set_val, upd. cbn. destruct (v =? n); [assumption|apply Z]. Qed.
Lemma zero_add l : forall g c, zero g -> zero (add_consumers g l c).
Proof. induction l as [|a l IH]; intros g c Z; [assumption|]. apply IH. apply zero_set; [assumption|apply Z]. Qed.
Lemma zero_remove_consumers l : forall g c, zero g -> zero (remove_consumers g l c).
Proof. induction l as [|a l IH]; intros g c Z; [assumption|]. apply IH. apply zero_set; [assumption|apply Z]. Qed.
Lemma zero_push g o t l g' n : zero g -> push_value g 0 o t l = Ok (g', n) -> zero g'.
Proof.
  intros Z. unfold push_value. destruct (arity_ok o (length l)); [|discriminate]. intros E. injection E as <- _. apply zero_add.
  intros v. unfold parent, upd. cbn. destruct (v =? g_next g); [reflexivity|apply Z].
Qed.
