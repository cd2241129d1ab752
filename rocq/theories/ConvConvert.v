(** The conversion up to the removal of copies. *)
From Coq Require Import String List Arith ZArith Bool Lia Permutation.
From Verif Require Import Outcome NumProofs IrModel IrSpec IrProofs CfgModel CfgSpec CountProofs ConvModel ConvSpec ConvShape ConvBlocks ConvGroup ConvInv ConvBranch ConvProcess ConvOptional.
Import ListNotations.
Open Scope outcome_scope.
Open Scope nat_scope.

Section Convert.
Variables (A : algebra) (Q : selecting A) (T : typing) (g0 : graph) (ops0 : list name) (r0 : name -> D A).
Hypothesis P0 : program T g0 0 ops0.
Hypothesis C0 : consistent r0 g0 ops0.
Hypothesis H0 : outputs_ok g0 ops0.
Notation N0 := (g_next g0).

Definition okset (done : list name) (v : name) : Prop := In v ops0 /\ (is_sink (op_of g0 v) = true -> In v done).
Lemma okset1 done v : okset done v -> In v ops0.
Proof. intros [H _]. exact H. Qed.
Lemma operand_in v a : In a (args g0 v) -> In v ops0 /\ In a ops0.
Proof.
  intros Ha. assert (Hv : In v ops0). { destruct (in_dec Nat.eq_dec v ops0) as [|N]; auto. rewrite (bo_dead g0 0 ops0 (proj1 P0) v N) in Ha. contradiction. }
  split; auto. pose proof (proj2 P0 v a Hv Ha) as B. now apply before_in in B.
Qed.
Lemma sink_save v : In v ops0 -> is_sink (op_of g0 v) = true -> exists u k, op_of g0 v = OSave u k.
Proof.
  intros Hv K. pose proof (proj1 (proj2 (bo_plain g0 0 ops0 (proj1 P0) v Hv))) as Nj. destruct (op_of g0 v); try discriminate; [congruence|eauto].
Qed.
Lemma okset2 done v a : okset done v -> In a (args g0 v) -> okset done a.
Proof.
  intros [Hv _] Ha. destruct (operand_in v a Ha) as [_ Ia]. split; auto. intros K. exfalso.
  destruct (sink_save a Ia K) as (u & k & E). destruct (proj2 H0 a u k) as (_ & _ & N); auto; [apply (bo_fresh g0 0 ops0 (proj1 P0)); auto|]. exact (N v Ha).
Qed.
Lemma closed_start : closed_graph g0.
Proof.
  constructor.
  - apply (bo_def_use g0 0 ops0 (proj1 P0)).
  - intros v a Ha. apply (bo_fresh g0 0 ops0 (proj1 P0)). now apply (operand_in v a).
  - intros v L. split; [|apply (proj1 H0)]. apply (bo_dead g0 0 ops0 (proj1 P0)). intros K. apply (bo_fresh g0 0 ops0 (proj1 P0)) in K. lia.
Qed.

Lemma start_inv done : inv A Q g0 r0 (okset done) r0 0 [] (mks g0 [mkb [] [] []] []).
Proof.
  assert (B : forall t, nth_block [mkb [] [] []] t = mkb [] [] []) by (intros [|[|t]]; reflexivity).
  pose proof (proj1 H0) as P.
  constructor; cbn [s_g s_blocks s_visited]; try (intros; rewrite P in *; congruence); auto.
  - constructor; intros; rewrite ?B in *; cbn in *; try contradiction; try discriminate.
    + apply shape_single; intros t; now rewrite B.
    + apply (bo_def_use g0 0 ops0 (proj1 P0)).
    + constructor.
  - apply closed_start.
  - intros v L. exfalso. lia.
  - intros v a E Ha. destruct (operand_in v a Ha) as [Hv _]. destruct (proj1 (bo_plain g0 0 ops0 (proj1 P0) v Hv) E).
  - intros B' key [].
  - intros t K. rewrite B in K. discriminate.
  - intros a c Ha _. eauto.
  - intros a c Ha. destruct (operand_in c a Ha) as [_ Ia]. split; [apply (bo_plain g0 0 ops0 (proj1 P0) a Ia)|].
    intros key _ La. pose proof (bo_fresh g0 0 ops0 (proj1 P0) a Ia). lia.
Qed.

Lemma optionals_inv ct fuel : forall l done r e opts st st' e', NoDup l ->
  (forall v, In v l -> In v ops0 /\ ~ In v done /\ is_sink (op_of g0 v) = true) ->
  inv A Q g0 r0 (okset done) r e opts st -> mfold (optional_step fuel ct) l (st, e) = Ok (st', e') ->
  exists r' opts', inv A Q g0 r0 (okset (l ++ done)) r' e' opts' st' /\
    (forall x, parent (s_g st) x <> 0 -> parent (s_g st') x = parent (s_g st) x) /\ incl opts opts' /\
    (forall t, t < length (s_blocks st) -> exists l, bops (s_blocks st') t = l ++ bops (s_blocks st) t) /\
    (forall v, In v l -> exists B key, op_of g0 v = OSave 0 key /\ In (B, key) opts' /\ parent (s_g st') v = S B) /\
    (forall B key, In (B, key) opts' -> In (B, key) opts \/ exists v, In v l /\ parent (s_g st') v = S B /\ op_of g0 v = OSave 0 key).
Proof.
  induction l as [|v l IH]; intros done r e opts st st' e' ND HL I E.
  - cbn in E. injection E as <- <-. exists r, opts. split; [auto|]. split; [auto|]. split; [apply incl_refl|]. split; [intros t _; now exists []|]. split; [intros v []|auto].
  - inversion ND as [|v' l' Nv ND']; subst. cbn [mfold] in E. destruct (optional_step fuel ct (st, e) v) as [[st1 e1]| | | |] eqn:E1; cbn [bind] in E; try discriminate.
    destruct (HL v (or_introl eq_refl)) as (Iv & Dv & Sv). destruct (sink_save v Iv Sv) as (u & k & Ev).
    destruct (optional_inv A Q T g0 ops0 r0 P0 C0 (okset done) (okset (v :: done)) fuel ct r e opts st v st1 e1) as (r1 & B & key & Ek & I1 & Pv & Sf & Ln & Fr); auto.
    { apply okset1. } { intros x a. apply okset2. } { intros x [X Y]. split; auto. intros Z. right. auto. } { split; auto. intros _. now left. } { intros [_ K]. auto. }
    { apply (proj2 (proj2 (proj2 H0 v u k ltac:(apply (bo_fresh g0 0 ops0 (proj1 P0)); auto) Ev))). }
    destruct (IH (v :: done) r1 e1 ((B, key) :: opts) st1 st' e' ND') as (r' & opts' & I' & Fr' & Inc & Sf' & Hs & Hb); auto.
    { intros w Hw. destruct (HL w (or_intror Hw)) as (X & Y & Z). split; auto. split; auto. intros [<-|K]; auto. }
    assert (Pv' : parent (s_g st') v = S B) by (rewrite Fr'; congruence).
    exists r', opts'. split; [|split; [|split; [|split; [|split]]]].
    + apply (inv_mono A Q g0 r0 (okset (l ++ v :: done))); auto. intros x [X Y]. split; auto. intros Z. specialize (Y Z). rewrite in_app_iff in Y. cbn in Y |- *. rewrite in_app_iff. tauto.
    + intros x Nx. rewrite Fr', Fr; auto. rewrite Fr; auto.
    + intros x Hx. apply Inc. now right.
    + intros t Lt. destruct (Sf t Lt) as (l1 & Z1). destruct (Sf' t ltac:(lia)) as (l2 & Z2). exists (l2 ++ l1). rewrite Z2, Z1. apply app_assoc.
    + intros w [<-|Hw]; [|auto]. exists B, key. split; auto. split; auto. apply Inc. now left.
    + intros B' key' Hb'. destruct (Hb B' key' Hb') as [[K|K]|(w & W1 & W2 & W3)]; auto.
      * injection K as <- <-. right. exists v. split; auto. now left.
      * right. exists w. split; auto. now right.
Qed.

Lemma saves_in u v : In v (saves g0 u) <-> v < N0 /\ exists k, op_of g0 v = OSave u k.
Proof.
  unfold saves. rewrite filter_In, <- in_rev, in_seq. split.
  - intros [L K]. split; [lia|]. destruct (op_of g0 v) as [| | | | | | | | | | | | | | | |w key]; try discriminate. apply Nat.eqb_eq in K. subst. eauto.
  - intros [L (k & ->)]. split; [lia|apply Nat.eqb_refl].
Qed.
Lemma saves_nodup u : NoDup (saves g0 u).
Proof. unfold saves. apply NoDup_filter. apply NoDup_rev. apply seq_NoDup. Qed.

(** Everything up to the removal of copies. *)
Lemma convert_inv fuel ct c : convert fuel ct g0 = Ok c -> exists r e opts st g bl,
  inv A Q g0 r0 (fun v => In v ops0) r e opts st /\
  eliminate_useless_copies (s_g st) (s_blocks st) = Ok (g, bl) /\ discard_unused g = Ok tt /\ c = mkc g bl /\
  (forall v u k, v < N0 -> op_of g0 v = OSave u k -> u <> 0 -> parent (s_g st) v = 1) /\
  (forall v k, v < N0 -> op_of g0 v = OSave 0 k -> exists B, In (B, k) opts /\ parent (s_g st) v = S B) /\
  (forall v k, v < N0 -> op_of g0 v = OSave 2 k -> (forall w k', w < N0 -> op_of g0 w = OSave 2 k' -> w = v) -> exists l, bops (s_blocks st) 0 = l ++ [v]) /\
  (forall t, length (bdesc (s_blocks st) t) = 1 -> bops (s_blocks st) t <> []) /\
  (forall B key, In (B, key) opts -> exists v, v < N0 /\ op_of g0 v = OSave 0 key).
Proof.
  unfold convert. cbn [create_block s_blocks s_g s_visited length app]. intros E.
  destruct (process fuel ct (mks g0 [mkb [] [] []] []) (saves g0 2 ++ saves g0 1) 0 []) as [[[st1 e1] later]| | | |] eqn:E1; cbn [bind] in E; try discriminate.
  destruct later; cbn [nothing_deferred bind] in E; [|discriminate].
  set (done := saves g0 2 ++ saves g0 1) in *.
  assert (Hd : forall v, In v done -> v < N0 /\ exists u k, op_of g0 v = OSave u k /\ u <> 0).
  { intros v K. unfold done in K. rewrite in_app_iff, !saves_in in K. destruct K as [(L & k & K)|(L & k & K)]; split; auto; eexists; eexists; split; eauto; lia. }
  destruct (process_inv A Q T g0 ops0 r0 P0 C0 (okset done) (okset1 done) (okset2 done) ct [] fuel _ done 0 [] st1 e1 [] r0 0 E1 (start_inv done)) as (r1 & e1' & I1 & F1 & _ & Ke & _ & W1 & S1).
  { cbn. lia. } { intros v K. destruct (Hd v K) as (L & u & k & Ek & _). split; auto. apply (proj2 H0 v u k L Ek). } { intros x []. }
  { cbn [s_g]. intros v t _ P. rewrite (proj1 H0) in P. discriminate. }
  rewrite <- Ke in I1 by auto. clear Ke e1'.
  destruct (mfold (optional_step fuel ct) (saves g0 0) (st1, e1)) as [[st2 e2]| | | |] eqn:E2; cbn [bind] in E; try discriminate.
  destruct (optionals_inv ct fuel (saves g0 0) done r1 e1 [] st1 st2 e2 (saves_nodup 0)) as (r2 & opts & I2 & Fr & _ & Sf & Hs & Hb); auto.
  { intros v K. apply saves_in in K. destruct K as (L & k & Ek). split; [apply (proj2 H0 v 0 k L Ek)|]. split; [|now rewrite Ek].
    intros Z. destruct (Hd v Z) as (_ & u & k' & Ek' & Nu). congruence. }
  assert (E3 : process fuel ct st2 [] e2 [] = Ok (st2, e2, [])) by (destruct fuel; [discriminate|reflexivity]).
  rewrite E3 in E. cbn [bind nothing_deferred] in E. destruct (_ =? 1); [|discriminate].
  destruct (eliminate_useless_copies (s_g st2) (s_blocks st2)) as [[g bl]| | | |] eqn:E4; cbn [bind fst snd] in E; try discriminate.
  destruct (discard_unused g) as [[]| | | |] eqn:E5; cbn [bind] in E; try discriminate. injection E as <-.
  exists r2, e2, opts, st2, g, bl. split; [apply (inv_mono A Q g0 r0 (okset (saves g0 0 ++ done))); auto; intros x [X _]; auto|].
  split; [auto|]. split; [auto|]. split; [auto|]. split; [|split; [|split; [|split]]].
  - intros v u k L Ek Nu. assert (Kd : In v done).
    { unfold done. rewrite in_app_iff, !saves_in. destruct (proj2 H0 v u k L Ek) as (_ & Lu & _). destruct u as [|[|[|u]]]; try lia; [right|left]; eauto. }
    assert (parent (s_g st1) v = 1). { apply S1; auto; cbn [s_g]; [now rewrite Ek| |apply (proj1 H0)].
      destruct (cons_of g0 v) as [|x q] eqn:Ec; auto. exfalso. assert (In x (cons_of g0 v)) as Z by (rewrite Ec; now left).
      apply (def_use_in _ (bo_def_use g0 0 ops0 (proj1 P0))) in Z. destruct (proj2 H0 v u k L Ek) as (_ & _ & W). exact (W x Z). }
    rewrite Fr; congruence.
  - intros v k L Ek. destruct (Hs v) as (B & key & Z1 & Z2 & Z3); [apply saves_in; eauto|]. assert (key = k) by congruence. subst. eauto.
  - intros v k L Ek One. assert (S2 : exists q, done = v :: q).
    { unfold done. pose proof (saves_nodup 2) as ND. assert (K : In v (saves g0 2)) by (apply saves_in; eauto). destruct (saves g0 2) as [|w q] eqn:Es; [contradiction|].
      assert (In w (saves g0 2)) as Kw by (rewrite Es; now left). apply saves_in in Kw. destruct Kw as (Lw & k' & Ew). rewrite (One w k' Lw Ew). cbn. eauto. }
    destruct S2 as (q & Eq). destruct (proj2 H0 v 2 k L Ek) as (_ & _ & W).
    destruct (W1 v q Eq) as (l & El); cbn [s_g s_blocks]; [now rewrite Ek| |apply (proj1 H0)|reflexivity|].
    { destruct (cons_of g0 v) as [|x q'] eqn:Ec; auto. exfalso. assert (In x (cons_of g0 v)) as Z by (rewrite Ec; now left).
      apply (def_use_in _ (bo_def_use g0 0 ops0 (proj1 P0))) in Z. exact (W x Z). }
    destruct (Sf 0) as (l' & El'). { destruct (s_blocks st1) eqn:Eb; [|cbn; lia]. destruct l; discriminate El. }
    exists (l' ++ l). rewrite El', El. apply app_assoc.
  - intros t K. destruct (i_one _ _ _ _ _ _ _ _ _ I2 t K) as [|(key & Z)]; auto. destruct (Hb t key Z) as [[]|(v & V1 & V2 & _)].
    apply (i_par _ _ _ _ _ _ _ _ _ I2) in V2. intros X. rewrite X in V2. contradiction.
  - intros B key Z. destruct (Hb B key Z) as [[]|(v & V1 & _ & V3)]. exists v. apply saves_in in V1. tauto.
Qed.
End Convert.
