(** The converter as a whole keeps its invariant. *)
From Coq Require Import String List Arith ZArith Bool Lia Permutation.
From Verif Require Import Outcome NumProofs IrModel IrSpec IrProofs CfgModel CfgSpec CountProofs ConvModel ConvSpec ConvShape ConvBlocks ConvGroup ConvInv ConvBranch.
Import ListNotations.
Open Scope outcome_scope.
Open Scope nat_scope.

(** * The selects that are grouped *)
Fixpoint descending (l : list name) : Prop :=
  match l with
  | x :: (y :: _) as t => y <= x /\ descending t
  | _ => True
  end.
Lemma descending_app l x : descending l -> (forall y, In y l -> x <= y) -> descending (l ++ [x]).
Proof.
  induction l as [|a [|b t] IH]; intros D H; cbn; auto.
  - split; auto. apply H. now left.
  - destruct D as [D1 D2]. split; auto. apply IH; auto. intros y Hy. apply H. now right.
Qed.
Lemma sorted_head x l : sorted_names (x :: l) -> forall y, In y l -> x <= y.
Proof.
  revert x. induction l as [|z t IH]; intros x S y; [intros []|]. destruct S as [S1 S2]. intros [<-|Hy]; auto. specialize (IH z S2 y Hy). lia.
Qed.
Lemma sorted_tail x l : sorted_names (x :: l) -> sorted_names l.
Proof. destruct l; cbn; tauto. Qed.
Lemma descending_rev l : sorted_names l -> descending (rev l).
Proof.
  induction l as [|x t IH]; intros S; cbn [rev]; [exact Logic.I|]. apply descending_app; [apply IH; now apply sorted_tail in S|].
  intros y Hy. apply in_rev in Hy. now apply (sorted_head x t S).
Qed.
Lemma descending_head x l : descending (x :: l) -> forall y, In y l -> y <= x.
Proof.
  revert x. induction l as [|z t IH]; intros x S y; [intros []|]. destruct S as [S1 S2]. intros [<-|Hy]; auto. specialize (IH z S2 y Hy). lia.
Qed.
Lemma unique_in : forall l x, In x (unique l) <-> In x l.
Proof.
  induction l as [|a [|b t] IH]; intros x; [tauto|tauto|]. cbn [unique] in *. destruct (Nat.eqb_spec a b) as [->|N].
  - rewrite IH. cbn. tauto.
  - cbn [In]. rewrite IH. cbn. tauto.
Qed.
Lemma unique_nodup : forall l, descending l -> NoDup (unique l).
Proof.
  induction l as [|a [|b t] IH]; intros D; [constructor|repeat constructor; auto|]. destruct D as [D1 D2].
  change (unique (a :: b :: t)) with (if a =? b then unique (b :: t) else a :: unique (b :: t)). destruct (Nat.eqb_spec a b) as [->|N]; auto.
  constructor; auto. rewrite unique_in. intros [->|K]; [congruence|]. apply (descending_head b t D2) in K. lia.
Qed.
Lemma all_first_spec g : forall l fs, all_first g l = Ok fs -> forall c, In c fs -> exists v q, In v l /\ args g v = c :: q.
Proof.
  induction l as [|v t IH]; intros fs E c; cbn [all_first] in E.
  - injection E as <-. intros [].
  - unfold first_operand in E. destruct (args g v) as [|a q] eqn:Ea; cbn [bind] in E; try discriminate.
    destruct (all_first g t) as [fr| | | |] eqn:Er; cbn [bind] in E; try discriminate. injection E as <-. intros [<-|Hc].
    + exists v, q. split; [now left|auto].
    + destruct (IH fr eq_refl c Hc) as (w & p & X & Y). exists w, p. split; [now right|auto].
Qed.
Lemma most_common_in l c : most_common l = Ok c -> In c l.
Proof.
  destruct l as [|x t]; cbn [most_common]; intros E; [discriminate|]. injection E as <-.
  assert (K : forall q y, In (fold_left (more_common (x :: t)) q y) (y :: q)).
  { induction q as [|z q IH]; intros y; cbn [fold_left]; [now left|]. destruct (IH (more_common (x :: t) y z)) as [E|K].
    - rewrite <- E. unfold more_common. destruct (_ || _); [right; now left|now left].
    - right. now right. }
  apply K.
Qed.
Lemma select_spec g conds c grouped rest : select_conditionals g conds = Ok (c, grouped, rest) ->
  NoDup grouped /\ grouped <> [] /\ incl grouped conds /\ incl rest conds /\ forall v, In v grouped -> exists l, args g v = c :: l.
Proof.
  unfold select_conditionals. set (l := unique (rev (sort_names conds))). intros E.
  assert (Il : forall x, In x l <-> In x conds).
  { intros x. unfold l. rewrite unique_in, <- in_rev. split; apply Permutation_in; [apply sort_perm|symmetry; apply sort_perm]. }
  destruct (all_first g l) as [fs| | | |] eqn:Ef; cbn [bind] in E; try discriminate.
  destruct (most_common fs) as [c'| | | |] eqn:Em; cbn [bind] in E; try discriminate. injection E as <- <- <-.
  split; [apply NoDup_filter; apply unique_nodup; apply descending_rev; apply sorted_sort|]. split; [|split; [|split]].
  - apply most_common_in in Em. destruct (all_first_spec g l fs Ef _ Em) as (v & q & X & Y). intros K.
    assert (In v (filter (has_condition g c') l)) as Z by (apply filter_In; split; auto; unfold has_condition; rewrite Y; apply Nat.eqb_refl).
    rewrite K in Z. contradiction.
  - intros v K. apply filter_In in K. apply Il. tauto.
  - intros v K. apply filter_In in K. apply Il. tauto.
  - intros v K. apply filter_In in K. destruct K as [_ K]. unfold has_condition in K. destruct (args g v) as [|a q]; [discriminate|]. apply Nat.eqb_eq in K. subst. eauto.
Qed.

Section Process.
Variables (A : algebra) (Q : selecting A) (T : typing) (g0 : graph) (ops0 : list name) (r0 : name -> D A).
Hypothesis P0 : program T g0 0 ops0.
Hypothesis C0 : consistent r0 g0 ops0.
Notation N0 := (g_next g0).
Variable ok : name -> Prop.
Hypothesis Ok1 : forall v, ok v -> In v ops0.
Hypothesis Ok2 : forall v a, ok v -> In a (args g0 v) -> ok a.
Notation oks l := (forall x, In x l -> ok x).
Notation inv := (inv A Q g0 r0 ok).
Notation frame := (frame A).

Lemma process_inv ct opts : forall fuel st queue o deferred st' bk def' r e,
  process fuel ct st queue o deferred = Ok (st', bk, def') -> inv r e opts st -> o < length (s_blocks st) ->
  oks queue -> oks deferred -> (forall v t, op_of (s_g st) v = OPhi -> parent (s_g st) v = S t -> t <> o) ->
  exists r' e', inv r' e' opts st' /\ frame o r st r' st' /\ oks def' /\ (o = e -> bk = e') /\ (o <> e -> e' = e) /\
    (forall v q, queue = v :: q -> is_sink (op_of g0 v) = true -> cons_of (s_g st) v = [] -> parent (s_g st) v = 0 -> bops (s_blocks st) o = [] ->
       exists l, bops (s_blocks st') o = l ++ [v]) /\
    (forall v, In v queue -> is_sink (op_of g0 v) = true -> cons_of (s_g st) v = [] -> parent (s_g st) v = 0 -> parent (s_g st') v = S o).
Proof.
  induction fuel as [|f IH]; intros st queue o deferred st' bk def' r e E I Lo Hq Hd Hp; [discriminate|].
  cbn [process] in E. destruct (process_non_conditionals (S f) ct st queue [] deferred o) as [[[st1 conds] def1]| | | |] eqn:E1; cbn [bind] in E; try discriminate.
  destruct (loop_inv A Q T g0 ops0 r0 P0 C0 ok Ok1 Ok2 ct o (S f) st queue [] deferred st1 conds def1 r e opts E1 I Lo Hq Hd ltac:(intros v []) Hp) as (I1 & F1 & L1 & D1 & R1 & Hp1 & W1 & S1).
  destruct conds as [|c0 ct0].
  { injection E as <- <- <-. exists r, e. split; [auto|]. split; [auto|]. split; [auto|]. split; [auto|]. split; [auto|]. split; [exact W1|exact S1]. }
  set (conds := c0 :: ct0) in *.
  destruct (select_conditionals (s_g st1) conds) as [[[cond grouped] rest]| | | |] eqn:E2; cbn [bind] in E; try discriminate.
  destruct (select_spec _ _ _ _ _ E2) as (ND & Ng & Ig & Ir & Hc).
  cbn [create_block s_g s_blocks s_visited] in E.
  set (st3 := mks (s_g st1) ((s_blocks st1 ++ [mkb [] [] []]) ++ [mkb [] [] []]) (s_visited st1)) in *.
  set (n := length (s_blocks st1)) in *.
  assert (Er : length (s_blocks st1 ++ [mkb [] [] []]) = S n) by (rewrite app_length; cbn; fold n; lia). rewrite Er in E.
  destruct (mfold (group_step n (S n) o) grouped (st3, [], [])) as [[[st4 ql] qr]| | | |] eqn:E4; cbn [bind] in E; try discriminate.
  destruct (insert_branch st4 n (S n) o cond (rev grouped)) as [[st5 jump]| | | |] eqn:E5; cbn [bind] in E; try discriminate.
  destruct (branch_inv A Q T g0 ops0 r0 P0 C0 ok Ok1 Ok2 r e opts st1 o grouped cond st3 st4 ql qr st5 jump) as (r5 & I5 & F5 & Iql & Iqr & Ej & L5 & Hp5); auto.
  { fold n. lia. } { intros v K. apply (R1 v). auto. }
  fold n in I5, Ej, L5, Hp5. assert (Len : length (s_blocks st) = n) by (unfold n; lia).
  destruct (process f ct st5 ql n []) as [[[st6 bk6] later1]| | | |] eqn:E6; cbn [bind] in E; try discriminate.
  assert (Lo' : o < n) by lia.
  assert (Le : e < n) by (rewrite <- Len; apply (sh_entry _ _ _ _ (c_shape _ _ _ _ _ _ _ _ _ (i_core _ _ _ _ _ _ _ _ _ I)))).
  destruct (IH st5 ql n [] st6 bk6 later1 r5 (redir n o e) E6 I5) as (r6 & e6 & I6 & F6 & D6 & _ & K6 & _ & _).
  { lia. } { auto. } { intros x []. } { intros v t X Y. specialize (Hp5 v t X Y). lia. }
  rewrite K6 in * by (unfold redir; destruct (e =? o); lia). clear K6 e6.
  destruct (process f ct st6 qr (S n) later1) as [[[st7 bk7] later2]| | | |] eqn:E7; cbn [bind] in E; try discriminate.
  pose proof F6 as (_ & L6 & _ & _ & Ph6 & Sf6).
  destruct (IH st6 qr (S n) later1 st7 bk7 later2 r6 (redir n o e) E7 I6) as (r7 & e7 & I7 & F7 & D7 & _ & K7 & _ & _).
  { lia. } { auto. } { auto. } { intros v t X Y Et. subst t. destruct (Ph6 v (S n) X Y) as [X' Y']; [lia|lia|]. specialize (Hp5 v (S n) X' Y'). lia. }
  rewrite K7 in * by (unfold redir; destruct (e =? o); lia). clear K7 e7.
  pose proof F7 as (_ & L7 & _ & _ & Ph7 & Sf7).
  destruct (IH _ _ _ _ st' bk def' r7 (redir n o e) E I7) as (r8 & e8 & I8 & F8 & D8 & K8 & K9 & _ & _).
  { lia. }
  { intros x Hx. rewrite !in_app_iff in Hx. destruct Hx as [Hx|[Hx|Hx]].
    - destruct (all_consumers_visited st7 cond); [|destruct Hx]. destruct Hx as [<-|[]].
      destruct grouped as [|v gr]; [contradiction|]. destruct (Hc v (or_introl eq_refl)) as (l & El). destruct (R1 v) as (_ & Iv & Uv & _ & _); [apply Ig; now left|].
      pose proof (ok_lt T g0 ops0 P0 ok Ok1 v Iv) as Lv. pose proof (unvisited_unplaced _ _ _ _ _ _ _ _ _ v I1 Lv Uv) as Pv.
      destruct (unplaced_same _ _ _ _ _ _ _ _ _ v I1 Lv Pv) as [_ Av]. rewrite El in Av. apply (Ok2 v cond Iv). rewrite <- Av. now left.
    - auto.
    - apply (R1 x). auto. }
  { exact D1. }
  { intros v t X Y Et. subst t jump. destruct (Ph7 v (S (S n)) X Y) as [X' Y']; [lia|lia|]. destruct (Ph6 v (S (S n)) X' Y') as [X2 Y2]; [lia|lia|]. specialize (Hp5 v (S (S n)) X2 Y2). lia. }
  exists r8, e8. split; [auto|]. 
  assert (FF : frame o r st r8 st').
  { apply (frame_trans A o jump r st r7 st7 r8 st'); [lia| |auto]. apply (frame_trans A o (S n) r st r6 st6 r7 st7); [lia| |auto].
    apply (frame_trans A o n r st r5 st5 r6 st6); [lia| |auto]. apply (frame_trans A o o r st r st1 r5 st5); auto. }
  split; [auto|]. split; [auto|]. split; [|split; [|split]].
  - intros Eoe. apply K8. subst jump. unfold redir. rewrite Eoe, Nat.eqb_refl. auto.
  - intros Noe. rewrite K9; unfold redir; destruct (Nat.eqb_spec e o); try congruence; lia.
  - intros v q K X Y Z B. destruct (W1 v q K X Y Z B) as (l & El). destruct F5 as (_ & _ & _ & _ & _ & Sf5), F8 as (_ & _ & _ & _ & _ & Sf8). fold n in Sf5.
    destruct (Sf5 o Lo') as (l5 & E5'). destruct (Sf6 o ltac:(lia)) as (l6 & E6'). destruct (Sf7 o ltac:(lia)) as (l7 & E7'). destruct (Sf8 o ltac:(lia)) as (l8 & E8').
    exists (l8 ++ l7 ++ l6 ++ l5 ++ l). rewrite E8', E7', E6', E5', El. now rewrite <- !app_assoc.
  - intros v K X Y Z. pose proof (S1 v K X Y Z) as W. assert (W' : parent (s_g st1) v <> 0) by (rewrite W; discriminate).
    rewrite <- W. destruct F5 as (_ & _ & _ & F5 & _), F6 as (_ & _ & _ & F6 & _), F7 as (_ & _ & _ & F7 & _), F8 as (_ & _ & _ & F8 & _).
    rewrite F8, F7, F6, F5; auto; rewrite ?F7, ?F6, ?F5; auto; rewrite ?F6, ?F5; auto; rewrite ?F5; auto.
Qed.
End Process.
