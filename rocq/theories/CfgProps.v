(** C34: where two branches merge.  C36: operation counts. *)
From Coq Require Import String List Arith ZArith Bool Lia.
From Verif Require Import Outcome IrModel CfgModel CfgSpec MergeProofs CountProofs.
Import ListNotations.
Open Scope nat_scope.

(** Whatever the direction of the search, the block returned is the one where the two flows join first, and no other
    answer is given. *)
Theorem C34_merge_sound (next : nat -> list nat) (l r m : nat) : joins next l r m ->
  forall fuel m', find_merge_point fuel next l r = Ok m' -> m' = m.
Proof. intros J fuel m' E. destruct (find_merge_sound next l r m J fuel) as [K|K]; congruence. Qed.
Print Assumptions C34_merge_sound.

(** In a graph without cycles the search ends, downwards and upwards. *)
Theorem C34_merge_downwards (c : cfg) (l r m : nat) : acyclic (desc c) -> joins (desc c) l r m ->
  exists F, forall fuel, F <= fuel -> find_merge_point fuel (desc c) l r = Ok m.
Proof. intros A J. now apply merge_found. Qed.
Print Assumptions C34_merge_downwards.

Definition reversed (c : cfg) : cfg :=
  mkc (c_vals c) (map (fun x => mkb (b_ops x) (b_desc x) (b_anc x)) (c_blocks c)).
Lemma desc_reversed c b : desc (reversed c) b = anc c b.
Proof.
  unfold desc, anc, block, reversed. cbn [c_blocks]. revert b. induction (c_blocks c) as [|x t IH]; intros [|b]; cbn; auto.
Qed.
Lemma merge_loop_ext f g : (forall b, f b = g b) -> forall fuel q s, merge_loop fuel f q s = merge_loop fuel g q s.
Proof. intros E. induction fuel as [|n IH]; intros q s; cbn; auto. destruct q as [|[b k] q]; auto. rewrite E, !IH. reflexivity. Qed.
Lemma reach_ext f g : (forall b, f b = g b) -> forall a b, reach f a b -> reach g a b.
Proof. intros E a b. induction 1; econstructor; eauto. now rewrite <- E. Qed.
Lemma avoids_ext f g m : (forall b, f b = g b) -> forall a b, avoids f m a b -> avoids g m a b.
Proof. intros E a b. induction 1; [now constructor|]. eapply avoids_next; eauto. now rewrite <- E. Qed.
Theorem C34_merge_upwards (c : cfg) (l r m : nat) : acyclic (anc c) -> joins (anc c) l r m ->
  exists F, forall fuel, F <= fuel -> find_merge_point fuel (anc c) l r = Ok m.
Proof.
  intros [rank A] (J1 & J2 & J3). pose proof (desc_reversed c) as E. assert (E' : forall b, anc c b = desc (reversed c) b) by auto.
  destruct (merge_found (reversed c)) with (l := l) (r := r) (m := m) as [F HF].
  - exists rank. intros a x H. apply A. now rewrite <- E.
  - split; [|split]; [eapply reach_ext; eauto|eapply reach_ext; eauto|].
    intros b R1 R2. destruct (J3 b) as [K1 K2]; [eapply reach_ext; eauto|eapply reach_ext; eauto|].
    split; intros V; [apply K1|apply K2]; eapply avoids_ext; eauto.
  - exists F. intros fuel L. rewrite <- (HF fuel L). unfold find_merge_point. apply merge_loop_ext. exact E'.
Qed.
Print Assumptions C34_merge_upwards.

(** For structured control flow that is the block behind the branch. *)
Theorem C34_structured (c : cfg) (b l r j : nat) (bl br bj : list nat) : acyclic (desc c) ->
  desc c b = [l; r] -> region (desc c) l (Some j) bl -> region (desc c) r (Some j) br ->
  NoDup (b :: bl ++ br ++ bj) -> In j bj ->
  exists F, forall fuel, F <= fuel -> find_merge_point fuel (desc c) l r = Ok j.
Proof. intros A E Hl Hr ND Hj. apply C34_merge_downwards; auto. eapply region_joins; eauto. Qed.
Print Assumptions C34_structured.

(** Example: the values 0-5 are x, y, x < y, a jump on it, -x and x*y*x; 6 is a jump again, 7 and 8 add and divide. *)
Definition val_of (o : op) (l : list name) : value := mkv o (TScalar NFloat) l [] 0.
Definition graph_ex : graph :=
  mkg 9 (fun n => nth n [val_of (OLoad (LVar 0)) []; val_of (OLoad (LVar 1)) []; val_of (OCompare RLt) [0; 1];
                         val_of OJump [2]; val_of ONeg [0]; val_of OMul [0; 0; 1]; val_of OJump [2];
                         val_of OAdd [0; 1]; val_of ODiv [0; 1]] (val_of OCopy [])).
(** if (x < y) { -x; if (x < y) { x*x*y } else {}; x + y } else { -x }; x / y *)
Definition cfg_ex : cfg :=
  mkc graph_ex
    [mkb [0; 1; 2; 3] [] [1; 4]; mkb [4; 6] [0] [2; 3]; mkb [5] [1] [3]; mkb [7] [2; 1] [5]; mkb [4] [0] [5];
     mkb [8] [3; 4] []].
Lemma cfg_ex_acyclic : acyclic (desc cfg_ex) /\ acyclic (anc cfg_ex).
Proof.
  split; [exists (fun b => 6 - b)|exists (fun b => b)]; intros a x H;
    do 6 (destruct a as [|a]; [cbn in H; repeat destruct H as [<-|H]; try contradiction; lia|]); destruct a; contradiction.
Qed.
Lemma cfg_ex_region : region (desc cfg_ex) 0 None [0; 1; 2; 3; 4; 5].
Proof.
  apply (region_branch (desc cfg_ex) 0 1 4 5 None [1; 2; 3] [4] [5]); try reflexivity.
  - apply (region_branch (desc cfg_ex) 1 2 3 3 (Some 5) [2] [] [3]); try reflexivity.
    + apply region_step with (x := 3); [reflexivity|constructor|auto|discriminate].
    + constructor.
    + apply region_step with (x := 5); [reflexivity|constructor|auto|discriminate].
    + now left.
    + repeat (constructor; [cbn; lia|]). constructor.
    + intros m E. injection E as <-. cbn. lia.
  - apply region_step with (x := 5); [reflexivity|constructor|auto|discriminate].
  - constructor. reflexivity.
  - now left.
  - repeat (constructor; [cbn; lia|]). constructor.
  - discriminate.
Qed.
Lemma cfg_ex_jumps : forall a, In a [0; 1; 2; 3; 4; 5] -> jumps_match cfg_ex a.
Proof. intros a H. repeat destruct H as [<-|H]; try contradiction; cbn; eauto; eexists; split; try reflexivity; discriminate. Qed.

(** The outer branches merge at 5, the inner ones at 3; from 5 and 2 upwards the first common block is 1. *)
Example C34_merge_sound_ex :
  find_merge_point 20 (desc cfg_ex) 1 4 = Ok 5 /\ find_merge_point 20 (desc cfg_ex) 2 3 = Ok 3 /\
  find_merge_point 20 (anc cfg_ex) 3 4 = Ok 0 /\ find_merge_point 3 (desc cfg_ex) 1 4 = NoFuel.
Proof. repeat split. Qed.
(** What does not merge is an error. *)
Example C34_merge_downwards_ex :
  find_merge_point 20 (desc (mkc graph_ex [mkb [] [] [1; 2]; mkb [] [0] []; mkb [] [0] []])) 1 2 = Throws.
Proof. reflexivity. Qed.
Example C34_structured_ex : exists F, forall fuel, F <= fuel -> find_merge_point fuel (desc cfg_ex) 1 4 = Ok 5.
Proof.
  pose proof cfg_ex_region as H. inversion H as [| | |b l r j k bl br bj E Hl Hr Hj Inj ND Nm]; subst.
  - discriminate.
  - injection E as <- <-.
    assert (Ej : find_merge_point 20 (desc cfg_ex) 1 4 = Ok 5) by reflexivity.
    destruct (C34_structured cfg_ex 0 1 4 j bl br bj) as [F HF]; auto; [apply cfg_ex_acyclic|].
    rewrite (C34_merge_sound (desc cfg_ex) 1 4 j) with (fuel := 20) (m' := 5); eauto.
    apply (region_joins (desc cfg_ex) 0 1 4 j bl br bj); auto. apply cfg_ex_acyclic.
Qed.

(** No path of a structured function executes more operations of a kind than reported, and for every kind some path
    executes as many. *)
Theorem C36_worst_case (c : cfg) (e : nat) (bs : list nat) :
  first_block c = Ok e -> region (desc c) e None bs -> acyclic (desc c) -> (forall a, In a bs -> jumps_match c a) ->
  exists W F, (forall fuel, F <= fuel -> compute_operation_counts fuel c = Ok W) /\
    (forall p l, path (desc c) e p -> executed c l p <= W l) /\
    (forall l, exists p, path (desc c) e p /\ executed c l p = W l).
Proof.
  intros Ef H A J. destruct (region_count c A e None bs H J) as (W & U & At & C).
  destruct (C []) as [F HF]; [auto|discriminate|]. exists W, F. split; [|split].
  - intros fuel L. unfold compute_operation_counts. rewrite Ef. cbn [bind]. auto.
  - intros p l P. apply U. now apply walk_path.
  - intros l. destruct (At l) as (p & P & E). exists p. split; auto. now apply walk_path.
Qed.
Print Assumptions C36_worst_case.

(** The total is a bound for all the operations on any path. *)
Theorem C36_total (c : cfg) (e : nat) (bs : list nat) (fuel : nat) (W : counts) :
  first_block c = Ok e -> region (desc c) e None bs -> acyclic (desc c) -> (forall a, In a bs -> jumps_match c a) ->
  compute_operation_counts fuel c = Ok W ->
  forall p, path (desc c) e p ->
    (forall l, executed c l p <= W l) /\ list_sum (map (fun l => executed c l p) labels) <= total W.
Proof.
  intros Ef H A J EW p P. destruct (C36_worst_case c e bs Ef H A J) as (W' & F & HF & U & _).
  assert (E : W = W').
  { unfold compute_operation_counts in *. rewrite Ef in *. cbn [bind] in *. specialize (HF (F + fuel) ltac:(lia)).
    pose proof (count_mono c fuel e [] W EW (F + fuel) ltac:(lia)). congruence. }
  subst W'. split; [intros l; apply U; exact P|]. unfold total, labels. cbn.
  pose proof (fun l => U p l P) as K. pose proof (K CAdd). pose proof (K CBranch). pose proof (K CCall). pose proof (K CCompare).
  pose proof (K CDivide). pose proof (K CMultiply). pose proof (K CNegate). lia.
Qed.
Print Assumptions C36_total.

(** Without branches there is one path, and the counts are exact. *)
Theorem C36_straight_line (c : cfg) (e : nat) (bs : list nat) :
  first_block c = Ok e -> region (desc c) e None bs -> acyclic (desc c) -> (forall a, In a bs -> jumps_match c a) ->
  (forall a, length (desc c a) <= 1) ->
  exists p W F, path (desc c) e p /\ (forall q, path (desc c) e q -> q = p) /\
    (forall fuel, F <= fuel -> compute_operation_counts fuel c = Ok W) /\ forall l, W l = executed c l p.
Proof.
  intros Ef H A J S. destruct (C36_worst_case c e bs Ef H A J) as (W & F & HF & _ & At).
  assert (U : forall b p, path (desc c) b p -> forall q, path (desc c) b q -> q = p).
  { induction 1 as [b E|b x p Hx P IH]; intros q Q.
    - inversion Q as [|? y r Hy]; subst; auto. rewrite E in Hy. contradiction.
    - inversion Q as [? E|? y r Hy R]; subst; [rewrite E in Hx; contradiction|].
      assert (x = y).
      { specialize (S b). destruct (desc c b) as [|u [|w t]]; cbn in *; [contradiction| |lia]. destruct Hx as [->|[]], Hy as [->|[]]. auto. }
      subst. f_equal. apply IH. exact R. }
  destruct (At CAdd) as (p & P & _). exists p, W, F. split; [exact P|]. split; [intros q Q; exact (U e p P q Q)|].
  split; [exact HF|]. intros l. destruct (At l) as (q & Q & Eq). rewrite (U e p P q Q) in Eq. auto.
Qed.
Print Assumptions C36_straight_line.

Definition counts_of (o : outcome counts) : option (list nat) :=
  match o with Ok w => Some (map w labels) | _ => None end.
(** One addition, two branches, one comparison, division and negation and two multiplications. *)
Example C36_worst_case_ex : counts_of (compute_operation_counts 20 cfg_ex) = Some [1; 2; 0; 1; 1; 2; 1] /\
  path (desc cfg_ex) 0 [0; 1; 2; 3; 5] /\ path (desc cfg_ex) 0 [0; 4; 5] /\
  map (fun l => executed cfg_ex l [0; 1; 2; 3; 5]) labels = [1; 2; 0; 1; 1; 2; 1] /\
  map (fun l => executed cfg_ex l [0; 4; 5]) labels = [0; 1; 0; 1; 1; 0; 1].
Proof.
  split; [reflexivity|]. split; [|split; [|split; reflexivity]].
  - apply path_step with 1; [cbn; auto|]. apply path_step with 2; [cbn; auto|]. apply path_step with 3; [cbn; auto|].
    apply path_step with 5; [cbn; auto|]. now apply path_end.
  - apply path_step with 4; [cbn; auto|]. apply path_step with 5; [cbn; auto|]. now apply path_end.
Qed.
Example C36_total_ex : exists W F, (forall fuel, F <= fuel -> compute_operation_counts fuel cfg_ex = Ok W) /\
  (forall p l, path (desc cfg_ex) 0 p -> executed cfg_ex l p <= W l) /\
  (forall l, exists p, path (desc cfg_ex) 0 p /\ executed cfg_ex l p = W l).
Proof. eapply C36_worst_case; [reflexivity|exact cfg_ex_region|apply cfg_ex_acyclic|exact cfg_ex_jumps]. Qed.
Example C36_straight_line_ex :
  counts_of (compute_operation_counts 5 (mkc graph_ex [mkb [0; 1; 5] [] [1]; mkb [7; 8] [0] []])) = Some [1; 0; 0; 0; 1; 2; 0].
Proof. reflexivity. Qed.

(** The set of blocks not to be entered loses the merge block when a branch inside has the same one: in
    if (a) { if (b) { -x } }; x / y  without a block between the two ends, the division is counted twice. The
    converter of conditionals gives every branch a merge block of its own (ir_control_flow_converter.cc 221-243). *)
Definition cfg_shared : cfg :=
  mkc graph_ex [mkb [0; 1; 2; 3] [] [1; 3]; mkb [6] [0] [2; 3]; mkb [4] [1] [3]; mkb [8] [2; 1; 0] []].
Theorem C36_shared_merge_refuted :
  exists c W, acyclic (desc c) /\ (forall a, a < 4 -> jumps_match c a) /\ compute_operation_counts 20 c = Ok W /\
    exists l, forall p, path (desc c) 0 p -> executed c l p < W l.
Proof.
  exists cfg_shared. eexists. split; [|split; [|split; [reflexivity|]]].
  - exists (fun b => 4 - b). intros a x H.
    do 4 (destruct a as [|a]; [cbn in H; repeat destruct H as [<-|H]; try contradiction; lia|]). destruct a; contradiction.
  - intros a L. do 4 (destruct a as [|a]; [cbn; eauto; eexists; split; try reflexivity; discriminate|]). lia.
  - exists CDivide. intros p P.
    assert (P3 : forall p, path (desc cfg_shared) 3 p -> executed cfg_shared CDivide p = 1).
    { intros q Q. inversion Q; subst; [reflexivity|]. contradiction. }
    assert (P2 : forall p, path (desc cfg_shared) 2 p -> executed cfg_shared CDivide p = 1).
    { intros q Q. inversion Q as [|? x r Hx R]; subst; [discriminate|]. destruct Hx as [<-|[]]. rewrite executed_cons, (P3 _ R). reflexivity. }
    assert (P1 : forall p, path (desc cfg_shared) 1 p -> executed cfg_shared CDivide p = 1).
    { intros q Q. inversion Q as [|? x r Hx R]; subst; [discriminate|].
      destruct Hx as [<-|[<-|[]]]; rewrite executed_cons; [rewrite (P2 _ R)|rewrite (P3 _ R)]; reflexivity. }
    inversion P as [|? x r Hx R]; subst; [discriminate|].
    destruct Hx as [<-|[<-|[]]]; rewrite executed_cons; [rewrite (P1 _ R)|rewrite (P3 _ R)]; cbn; lia.
Qed.
Print Assumptions C36_shared_merge_refuted.
Example C36_shared_merge_refuted_ex : counts_of (compute_operation_counts 20 cfg_shared) = Some [0; 2; 0; 1; 2; 0; 1].
Proof. reflexivity. Qed.
