(** The way an execution of the blocks takes, and what it computes on it. *)
From Coq Require Import String List Arith ZArith Bool Lia.
From Verif Require Import Outcome NumProofs IrModel IrSpec CfgModel CfgSpec MergeProofs ConvSpec AstModel AstSpec StmtModel StmtSpec StmtStore StmtRegion.
Import ListNotations.
Open Scope nat_scope.
Open Scope list_scope.

Section Run.
Variable A : algebra.
Variable Q : selecting A.
Variable c : cfg.
Variables (e : nat) (all : list nat).
Hypothesis BR : branching c e all.
Notation g := (c_vals c).
Notation next := (desc c).
Variable Ev : env A.   (* the values at the end *)

Definition r (v : name) : D A := match Ev v with Some d => d | None => d0 A end.
Definition good (from : option nat) (t : nat) : Prop := forall v, In v (ops_of c t) -> exists xs d,
  read_all A Ev (sources c from v) = Some xs /\ result A (op_of g v) xs = Some d /\ Ev v = Some d.
Inductive trace : option nat -> nat -> list nat -> Prop :=
| tr_end from b : next b = [] -> good from b -> trace from b [b]
| tr_step from b x p : good from b -> next_block A Q c b Ev = Some (Some x) -> trace (Some b) x p -> trace from b (b :: p).
Definition block_outs (t : nat) : list (nat * string * D A) := flat_map (fun v => handed A (op_of g v) (r v)) (ops_of c t).

Lemma read_all_map l xs : read_all A Ev l = Some xs -> xs = map r l.
Proof.
  revert xs. induction l as [|a l IH]; intros xs E; cbn in E; [injection E as <-; reflexivity|].
  destruct (Ev a) as [x|] eqn:Ea; [|discriminate]. destruct (read_all A Ev l) as [ys|]; [|discriminate]. injection E as <-.
  cbn. f_equal; [|now apply IH]. unfold r. now rewrite Ea.
Qed.
Lemma good_value from t v : good from t -> In v (ops_of c t) -> op_of g v <> OPhi -> r v = sem A (op_of g v) (map r (args g v)).
Proof.
  intros G Kv Np. destruct (G v Kv) as (xs & d & R & X & Y). assert (So : sources c from v = args g v) by (unfold sources; destruct (op_of g v); congruence).
  rewrite So in R. apply read_all_map in R. subst xs. unfold r at 1. rewrite Y.
  destruct (op_of g v); cbn in X; congruence.
Qed.
Lemma good_phi from t v : good from t -> In v (ops_of c t) -> op_of g v = OPhi -> exists s x, from = Some s /\ In x (args g v) /\ In x (ops_of c s) /\ r v = r x.
Proof.
  intros G Kv Op. destruct (G v Kv) as (xs & d & R & X & Y). unfold sources in R. rewrite Op in R. destruct from as [s|].
  - apply read_all_map in R. rewrite Op in X. cbn in X. destruct xs as [|x [|? ?]]; try discriminate. injection X as ->.
    destruct (filter _ (args g v)) as [|a [|? ?]] eqn:Ef; try discriminate. injection R as ->.
    assert (In a (filter (fun a => parent g a =? 1 + s) (args g v))) as Ia by (rewrite Ef; now left). apply filter_In in Ia. destruct Ia as [Ia Ea].
    apply Nat.eqb_eq in Ea. exists s, a. split; auto. split; auto. split.
    + destruct (br_phi _ _ _ BR t v Kv Op) as (l & r0 & x & y & _ & _ & _ & _ & Eq & Kx & Ky). rewrite Eq in Ia.
      destruct Ia as [<-|[<-|[]]]; [pose proof (br_parent _ _ _ BR l x Kx)|pose proof (br_parent _ _ _ BR r0 y Ky)].
      * replace s with l by lia. auto.
      * replace s with r0 by lia. auto.
    + unfold r at 1. now rewrite Y.
  - cbn in R. injection R as <-. rewrite Op in X. discriminate.
Qed.
End Run.

Section Trace.
Variable A : algebra.
Variable Q : selecting A.
Variable c : cfg.
Variables (e : nat) (all : list nat).
Hypothesis BR : branching c e all.
Notation g := (c_vals c).
Notation next := (desc c).

Lemma entry_reaches t : In t all -> reach next e t.
Proof. apply (region_from next e None all (br_region _ _ _ BR)). Qed.
Lemma reach_leads a b : reach next a b -> exists p, leads next a b p.
Proof. induction 1 as [a|a x b H R (p & L)]; [exists [a]; constructor|]. exists (a :: p). now apply leads_next with x. Qed.
Lemma leads_reach a b p : leads next a b p -> forall u, In u p -> reach next u b.
Proof.
  induction 1 as [b|a x b p H L IH]; intros u Hu.
  - destruct Hu as [<-|[]]. constructor.
  - destruct Hu as [<-|Hu]; auto. apply reach_next with x; auto. apply IH. destruct L; now left.
Qed.
(** The operands of a block are of blocks on the way to it. *)
Lemma sources_before from t v a : (forall p, from = Some p -> In t (next p)) -> In v (ops_of c t) -> In a (sources c from v) ->
  exists u, In a (ops_of c u) /\ reach next u t /\ (u = t -> before (ops_of c t) a v).
Proof.
  intros Hf Kv Ia. destruct (is_phi (op_of g v)) eqn:Ep.
  - apply is_phi_spec in Ep. unfold sources in Ia. rewrite Ep in Ia. destruct from as [s|]; [|contradiction]. specialize (Hf s eq_refl).
    apply filter_In in Ia. destruct Ia as [Ia Pa]. apply Nat.eqb_eq in Pa. 
    destruct (br_phi _ _ _ BR t v Kv Ep) as (l & r0 & x & y & _ & _ & _ & _ & Eq & Kx & Ky). rewrite Eq in Ia.
    assert (In a (ops_of c s)) as Ka.
    { destruct Ia as [<-|[<-|[]]]; [pose proof (br_parent _ _ _ BR l x Kx)|pose proof (br_parent _ _ _ BR r0 y Ky)].
      - replace s with l by lia. auto.
      - replace s with r0 by lia. auto. }
    exists s. split; auto. split; [apply reach_next with t; auto; constructor|]. intros ->. exfalso. apply (no_cycle c e all BR t t); auto. constructor.
  - assert (Np : op_of g v <> OPhi) by (intros E; apply is_phi_spec in E; congruence).
    assert (So : sources c from v = args g v) by (unfold sources; destruct (op_of g v); congruence). rewrite So in Ia.
    destruct (br_defined _ _ _ BR t v a Kv Np Ia) as (u & Ka & Du & Bf). exists u. split; auto. split; auto.
    destruct (reach_leads e t (entry_reaches t (ops_in c e all BR t v Kv))) as (p & Lp). apply (leads_reach e t p Lp). now apply Du.
Qed.
Lemma not_later a u t x w : In a (ops_of c u) -> reach next u t -> In x (next t) -> reach next x w -> ~ In a (ops_of c w).
Proof.
  intros Ka R Hx Rw Kw. rewrite (block_unique c e all BR u w a Ka Kw) in R. apply (no_cycle c e all BR t x Hx). now apply reach_trans with w.
Qed.

Lemma read_all_ext (E E' : env A) l : (forall a, In a l -> E' a = E a) -> read_all A E' l = read_all A E l.
Proof. induction l as [|a l IH]; intros H; cbn; auto. rewrite (H a (or_introl eq_refl)). rewrite IH; auto. intros b Hb. apply H. now right. Qed.

Lemma split_unique (v : name) l1 : forall k1 l2 k2, ~ In v l1 -> ~ In v k1 -> l1 ++ v :: l2 = k1 ++ v :: k2 -> l1 = k1.
Proof.
  induction l1 as [|x l1 IH]; intros [|y k1] l2 k2 N1 N2 E; cbn in E; auto.
  - injection E as <- E. exfalso. apply N2. now left.
  - injection E as -> E. exfalso. apply N1. now left.
  - injection E as <- E. f_equal. apply IH with l2 k2; auto; intros K; [apply N1|apply N2]; now right.
Qed.
Lemma before_prefix (l1 l2 : list name) a v : NoDup (l1 ++ v :: l2) -> before (l1 ++ v :: l2) a v -> In a l1.
Proof.
  intros ND (k1 & k2 & E & Ia). pose proof ND as ND'. rewrite E in ND'. apply NoDup_remove_2 in ND, ND'. rewrite in_app_iff in ND, ND'.
  rewrite (split_unique v l1 k1 l2 k2); auto.
Qed.

Lemma block_run from t : (forall p, from = Some p -> In t (next p)) -> forall l2 l1 s s', ops_of c t = l1 ++ l2 -> run_block A c from l2 s = Some s' ->
  (forall v, In v l2 -> exists xs d, read_all A (fst s') (sources c from v) = Some xs /\ result A (op_of g v) xs = Some d /\ fst s' v = Some d) /\
  (forall v, ~ In v l2 -> fst s' v = fst s v) /\
  snd s' = snd s ++ flat_map (fun v => handed A (op_of g v) (r A (fst s') v)) l2.
Proof.
  intros Hf. induction l2 as [|v l2 IH]; intros l1 s s' El R; cbn [run_block] in R.
  - injection R as <-. split; [intros v []|]. split; auto. cbn. now rewrite app_nil_r.
  - destruct (read_all A (fst s) (sources c from v)) as [xs|] eqn:Er; [|discriminate]. destruct (result A (op_of g v) xs) as [d|] eqn:Ed; [|discriminate].
    assert (El' : ops_of c t = (l1 ++ [v]) ++ l2) by now rewrite <- app_assoc.
    destruct (IH (l1 ++ [v]) _ s' El' R) as (I1 & I2 & I3). cbn [fst snd] in I2, I3.
    pose proof (br_nodup _ _ _ BR t) as ND. rewrite El in ND.
    assert (Nv : ~ In v l2) by (apply NoDup_remove_2 in ND; rewrite in_app_iff in ND; tauto).
    assert (Kv : In v (ops_of c t)) by (rewrite El, in_app_iff; right; now left).
    assert (Src : forall a, In a (sources c from v) -> ~ In a (v :: l2)).
    { intros a Ia K. destruct (sources_before from t v a Hf Kv Ia) as (u & Ka & Ru & Bf).
      assert (Kt : In a (ops_of c t)) by (rewrite El, in_app_iff; now right). rewrite (block_unique c e all BR u t a Ka Kt) in Bf. specialize (Bf eq_refl). rewrite El in Bf.
      apply before_prefix in Bf; auto. exact (nodup_apart l1 (v :: l2) a ND Bf K). }
    assert (Vv : fst s' v = Some d) by (rewrite I2 by auto; unfold set_env; now rewrite Nat.eqb_refl).
    split; [|split].
    + intros w [<-|Hw]; [|now apply I1]. exists xs, d. split; [|auto]. rewrite <- Er. apply read_all_ext. intros a Ia. specialize (Src a Ia).
      rewrite I2 by (intros K; apply Src; now right). unfold set_env. destruct (Nat.eqb_spec a v) as [->|]; auto. exfalso. apply Src. now left.
    + intros w Hw. rewrite I2 by (intros K; apply Hw; now right). unfold set_env. destruct (Nat.eqb_spec w v) as [->|]; auto. exfalso. apply Hw. now left.
    + rewrite I3. cbn [flat_map]. rewrite <- app_assoc. f_equal. f_equal. unfold r. now rewrite Vv.
Qed.
Lemma run_other : forall fuel from b s s', (forall p, from = Some p -> In b (next p)) -> run A Q c fuel from b s = Some s' ->
  forall v, (forall t, reach next b t -> ~ In v (ops_of c t)) -> fst s' v = fst s v.
Proof.
  induction fuel as [|f IH]; intros from b s s' Hf R v Hv; cbn [run] in R; [discriminate|].
  destruct (run_block A c from (ops_of c b) s) as [s1|] eqn:E1; [|discriminate]. destruct (block_run from b Hf (ops_of c b) [] s s1 eq_refl E1) as (_ & B2 & _).
  assert (X : fst s1 v = fst s v) by (apply B2; apply Hv; constructor).
  destruct (next_block A Q c b (fst s1)) as [[x|]|] eqn:En; [|injection R as <-; auto|discriminate]. rewrite <- X.
  assert (Hx : In x (next b)).
  { unfold next_block in En. destruct (next b) as [|l [|r0 [|? ?]]]; try discriminate.
    - injection En as <-. now left.
    - destruct (rev (ops_of c b)) as [|w q]; [discriminate|]. destruct (op_of g w); try discriminate. destruct (args g w) as [|a [|? ?]]; try discriminate.
      destruct (fst s1 a) as [dd|]; [|discriminate]. injection En as <-. destruct (truth Q dd); [now left|right; now left]. }
  apply (IH (Some b) x s1 s'); auto.
  - intros p Ep. injection Ep as <-. auto.
  - intros t Rt. apply Hv. now apply reach_next with x.
Qed.
Lemma next_block_in b E x : next_block A Q c b E = Some (Some x) -> In x (next b).
Proof.
  unfold next_block. intros En. destruct (next b) as [|l [|r0 [|? ?]]]; try discriminate.
  - injection En as <-. now left.
  - destruct (rev (ops_of c b)) as [|w q]; [discriminate|]. destruct (op_of g w); try discriminate. destruct (args g w) as [|a [|? ?]]; try discriminate.
    destruct (E a) as [dd|]; [|discriminate]. injection En as <-. destruct (truth Q dd); [now left|right; now left].
Qed.

Lemma run_trace : forall fuel from b s s', (forall p, from = Some p -> In b (next p)) -> run A Q c fuel from b s = Some s' ->
  exists p, trace A Q c (fst s') from b p /\ snd s' = snd s ++ flat_map (block_outs A c (fst s')) p.
Proof.
  induction fuel as [|f IH]; intros from b s s' Hf R; cbn [run] in R; [discriminate|].
  destruct (run_block A c from (ops_of c b) s) as [s1|] eqn:E1; [|discriminate]. destruct (block_run from b Hf (ops_of c b) [] s s1 eq_refl E1) as (B1 & B2 & B3).
  destruct (next_block A Q c b (fst s1)) as [[x|]|] eqn:En; [| |discriminate].
  - pose proof (next_block_in b (fst s1) x En) as Hx.
    assert (Hf' : forall p, Some b = Some p -> In x (next p)) by (intros p Ep; injection Ep as <-; auto).
    destruct (IH (Some b) x s1 s' Hf' R) as (p & Tr & Out).
    assert (Same : forall a u, In a (ops_of c u) -> reach next u b -> fst s' a = fst s1 a).
    { intros a u Ka Ru. apply (run_other f (Some b) x s1 s' Hf' R). intros t Rt. now apply (not_later a u b x). }
    exists (b :: p). split.
    + apply tr_step with x; auto.
      * intros v Kv. destruct (B1 v Kv) as (xs & d & Y1 & Y2 & Y3). exists xs, d. split; [|split]; auto.
        -- rewrite <- Y1. apply read_all_ext. intros a Ia. destruct (sources_before from b v a Hf Kv Ia) as (u & Ka & Ru & _). now apply (Same a u).
        -- rewrite <- Y3. apply (Same v b); auto. constructor.
      * rewrite <- En. unfold next_block. destruct (next b) as [|l [|r0 [|? ?]]]; auto. destruct (rev (ops_of c b)) as [|w q] eqn:Er; auto.
        destruct (op_of g w) eqn:Ow; auto. destruct (args g w) as [|a [|? ?]] eqn:Ea; auto.
        assert (Kw : In w (ops_of c b)) by (apply in_rev; rewrite Er; now left). 
        assert (Ia : In a (sources c from w)) by (unfold sources; rewrite Ow, Ea; now left).
        destruct (sources_before from b w a Hf Kw Ia) as (u & Ka & Ru & _). now rewrite (Same a u Ka Ru).
    + rewrite Out, B3. cbn [flat_map]. rewrite <- app_assoc. f_equal. f_equal. unfold block_outs.
      assert (G : forall l, (forall v, In v l -> In v (ops_of c b)) -> flat_map (fun v => handed A (op_of g v) (r A (fst s1) v)) l = flat_map (fun v => handed A (op_of g v) (r A (fst s') v)) l).
      { induction l as [|v l IHl]; intros Hl; cbn; auto. rewrite IHl by (intros w Hw; apply Hl; now right). f_equal. f_equal. unfold r.
        rewrite (Same v b); auto; [apply Hl; now left|constructor]. }
      apply G. auto.
  - injection R as <-. exists [b]. split.
    + apply tr_end; auto. unfold next_block in En. destruct (next b) as [|l [|r0 [|? ?]]]; auto; try discriminate. destruct (rev (ops_of c b)) as [|w q]; [discriminate|]. destruct (op_of g w); try discriminate. destruct (args g w) as [|a [|? ?]]; try discriminate.
      destruct (fst s1 a); discriminate.
    + rewrite B3. cbn. now rewrite app_nil_r.
Qed.
End Trace.
