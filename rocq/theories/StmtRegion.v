(** Where the values of a region of blocks come from, and where phi functions are. *)
From Coq Require Import String List Arith ZArith Bool Lia.
From Verif Require Import Outcome NumProofs IrModel IrSpec CfgModel CfgSpec MergeProofs CountProofs ConvSpec AstModel AstSpec StmtModel StmtSpec StmtStore.
Import ListNotations.
Open Scope nat_scope.
Open Scope list_scope.

Section Paths.
Variable next : nat -> list nat.

Lemma avoids_leads m a b : avoids next m a b -> exists p, leads next a b p /\ ~ In m p.
Proof.
  induction 1 as [a N|a x b N Hx H (p & Lp & Np)].
  - exists [a]. split; [constructor|]. intros [|[]]; auto.
  - exists (a :: p). split; [now apply leads_next with x|]. intros [|]; auto.
Qed.
Lemma avoids_trans m a x b : avoids next m a x -> avoids next m x b -> avoids next m a b.
Proof. induction 1; intros; auto. eapply avoids_next; eauto. Qed.
Lemma avoids_neq m a b : avoids next m a b -> b <> m.
Proof. induction 1; auto. Qed.

Lemma region_across b m bs u : region next b (Some m) bs -> ~ In u bs -> u <> m -> avoids next u b m.
Proof.
  remember (Some m) as k eqn:Ek. intros H. revert m Ek.
  induction H as [m|b E|b x k bs E H IH N Nk|b l r j k bl br bj E Hl IHl Hr IHr Hj IHj Inj ND Nm]; intros q Ek Nu Nq; try discriminate.
  - injection Ek as ->. apply avoids_here. congruence.
  - subst k. apply avoids_next with x; [intros ->; apply Nu; now left|rewrite E; now left|]. apply IH; auto. intros K. apply Nu. now right.
  - subst k. apply avoids_next with l; [intros ->; apply Nu; now left|rewrite E; now left|].
    assert (~ In u bl /\ ~ In u bj) as [N1 N2] by (split; intros K; apply Nu; right; rewrite !in_app_iff; auto).
    apply avoids_trans with j; [apply (IHl j); auto; intros ->; contradiction|]. now apply IHj.
Qed.
Lemma region_from b k bs : region next b k bs -> forall a, In a bs -> reach next b a.
Proof.
  induction 1 as [m|b E|b x k bs E H IH N Nk|b l r j k bl br bj E Hl IHl Hr IHr Hj IHj Inj ND Nm]; intros a Ha.
  - contradiction.
  - destruct Ha as [<-|[]]. constructor.
  - destruct Ha as [<-|Ha]; [constructor|]. apply reach_next with x; [rewrite E; now left|auto].
  - destruct Ha as [<-|Ha]; [constructor|]. rewrite !in_app_iff in Ha. destruct Ha as [Ha|[Ha|Ha]].
    + apply reach_next with l; [rewrite E; now left|auto].
    + apply reach_next with r; [rewrite E; right; now left|auto].
    + apply reach_next with l; [rewrite E; now left|]. apply reach_trans with j; [|auto]. now apply (region_reaches next l j bl).
Qed.
Lemma reach_rank (rank : nat -> nat) (Hr : forall a x, In x (next a) -> rank x < rank a) a b : reach next a b -> rank b <= rank a.
Proof. induction 1; auto. apply Hr in H. lia. Qed.

(** Only the first block of a region is entered from outside. *)
Definition single_entry (b : nat) (bs : list nat) : Prop := forall a x, In x bs -> In x (next a) -> In a bs \/ x = b.

Lemma entry_step b x k bs : next b = [x] -> region next x k bs -> ~ In b bs -> single_entry b (b :: bs) -> single_entry x bs.
Proof.
  intros E R N SE a y Hy Ey. destruct (SE a y (or_intror Hy) Ey) as [[<-|Ha]| ->]; auto.
  - rewrite E in Ey. destruct Ey as [<-|[]]. auto.
  - contradiction.
Qed.
Section Branch.
Variables (b l r j : nat) (k : option nat) (bl br bj : list nat).
Hypothesis E : next b = [l; r].
Hypothesis Hl : region next l (Some j) bl.
Hypothesis Hr : region next r (Some j) br.
Hypothesis Hj : region next j k bj.
Hypothesis Inj : In j bj.
Hypothesis ND : NoDup (b :: bl ++ br ++ bj).
Hypothesis Nm : forall m, k = Some m -> ~ In m (b :: bl ++ br ++ bj).
Hypothesis SE : single_entry b (b :: bl ++ br ++ bj).

Lemma parts : (~ In b bl /\ ~ In b br /\ ~ In b bj) /\ (forall x, In x bl -> In x br -> False) /\ (forall x, In x bl -> In x bj -> False) /\ (forall x, In x br -> In x bj -> False).
Proof.
  inversion ND as [|? ? N1 N2]; subst. rewrite !in_app_iff in N1. split; [tauto|]. split; [|split]; intros x X Y.
  - apply (nodup_apart bl (br ++ bj) x N2 X). rewrite in_app_iff. auto.
  - apply (nodup_apart bl (br ++ bj) x N2 X). rewrite in_app_iff. auto.
  - rewrite app_assoc in N2. apply (nodup_apart (bl ++ br) bj x N2); auto. rewrite in_app_iff. auto.
Qed.
Lemma head_left : In l bl \/ (l = j /\ bl = []).
Proof. clear -Hl. inversion Hl; subst; auto; left; now left. Qed.
Lemma head_right : In r br \/ (r = j /\ br = []).
Proof. clear -Hr. inversion Hr; subst; auto; left; now left. Qed.
Lemma inside_of a x : In x (b :: bl ++ br ++ bj) -> x <> b -> In x (next a) ->
  a = b \/ (In a bl /\ (In x bl \/ x = j)) \/ (In a br /\ (In x br \/ x = j)) \/ (In a bj /\ In x bj).
Proof.
  intros Hx Nb Ex. destruct (SE a x Hx Ex) as [Ha|]; [|contradiction]. destruct Ha as [<-|Ha]; auto. rewrite !in_app_iff in Ha. right.
  destruct Ha as [Ha|[Ha|Ha]].
  - left. split; auto. destruct (region_inside next _ _ _ Hl a x Ha Ex) as [|Y]; auto. injection Y as ->. auto.
  - right. left. split; auto. destruct (region_inside next _ _ _ Hr a x Ha Ex) as [|Y]; auto. injection Y as ->. auto.
  - right. right. split; auto. destruct (region_inside next _ _ _ Hj a x Ha Ex) as [|Y]; auto. destruct (Nm x Y Hx).
Qed.
Lemma entry_left : single_entry l bl.
Proof.
  destruct parts as ((B1 & B2 & B3) & P1 & P2 & P3). intros a y Hy Ey.
  assert (Nb : y <> b) by (intros ->; contradiction).
  destruct (inside_of a y) as [->|[[Ha _]|[[Ha [K| ->]]|[Ha K]]]]; auto.
  - right. rewrite !in_app_iff. auto.
  - rewrite E in Ey. destruct Ey as [<-|[<-|[]]]; auto. destruct head_right as [K|[K _]]; exfalso; [eauto|]. rewrite K in Hy. eauto.
  - destruct (P1 y Hy K).
  - destruct (P2 j Hy Inj).
  - destruct (P2 y Hy K).
Qed.
Lemma entry_right : single_entry r br.
Proof.
  destruct parts as ((B1 & B2 & B3) & P1 & P2 & P3). intros a y Hy Ey.
  assert (Nb : y <> b) by (intros ->; contradiction).
  destruct (inside_of a y) as [->|[[Ha [K| ->]]|[[Ha _]|[Ha K]]]]; auto.
  - right. rewrite !in_app_iff. auto.
  - rewrite E in Ey. destruct Ey as [<-|[<-|[]]]; auto. destruct head_left as [K|[K _]]; exfalso; [eauto|]. rewrite K in Hy. eauto.
  - destruct (P1 y K Hy).
  - destruct (P3 j Hy Inj).
  - destruct (P3 y Hy K).
Qed.
Lemma entry_join : single_entry j bj.
Proof.
  destruct parts as ((B1 & B2 & B3) & P1 & P2 & P3). intros a y Hy Ey.
  assert (Nb : y <> b) by (intros ->; contradiction).
  destruct (inside_of a y) as [->|[[Ha [K|K]]|[[Ha [K|K]]|[Ha K]]]]; auto.
  - right. rewrite !in_app_iff. auto.
  - rewrite E in Ey. destruct Ey as [<-|[<-|[]]].
    + destruct head_left as [K|[K _]]; auto. destruct (P2 l K Hy).
    + destruct head_right as [K|[K _]]; auto. destruct (P3 r K Hy).
  - destruct (P2 y K Hy).
  - destruct (P3 y K Hy).
Qed.
End Branch.
End Paths.

(** ** Values of blocks *)
Section Blocks.
Variable c : cfg.
Variables (e : nat) (all : list nat).
Hypothesis BR : branching c e all.
Notation g := (c_vals c).
Notation next := (desc c).

Lemma block_unique t u v : In v (ops_of c t) -> In v (ops_of c u) -> t = u.
Proof. intros A B. apply (br_parent _ _ _ BR) in A, B. lia. Qed.
Lemma ops_in t v : In v (ops_of c t) -> In t all.
Proof.
  intros H. apply (br_all _ _ _ BR). destruct (Nat.lt_ge_cases t (length (c_blocks c))) as [|G]; auto. unfold ops_of, block in H. rewrite nth_overflow in H by auto. contradiction.
Qed.
Lemma next_in t x : In x (next t) -> In t all.
Proof.
  intros H. apply (br_all _ _ _ BR). destruct (Nat.lt_ge_cases t (length (c_blocks c))) as [|G]; auto. unfold desc, block in H. rewrite nth_overflow in H by auto. contradiction.
Qed.
Lemma entry_all : single_entry next e all.
Proof. intros a x _ H. left. now apply (next_in a x). Qed.
Lemma no_cycle a x : In x (next a) -> reach next x a -> False.
Proof. destruct (br_acyclic _ _ _ BR) as [rank Hr]. intros H R. apply (reach_rank next rank Hr) in R. apply Hr in H. lia. Qed.

Definition has_phi (t : nat) : Prop := exists p, In p (ops_of c t) /\ op_of g p = OPhi.
Lemma phi_preds t : has_phi t -> exists l r, l <> r /\ In t (next l) /\ In t (next r) /\ (forall a, In t (next a) -> a = l \/ a = r) /\ next l = [t] /\ next r = [t].
Proof.
  intros (p & Kp & Op). destruct (br_phi _ _ _ BR t p Kp Op) as (l & r & x & y & Ea & Nlr & Dl & Dr & _).
  exists l, r. split; auto. rewrite Dl, Dr. split; [now left|]. split; [now left|]. split; auto.
  intros a Ha. apply (br_edge _ _ _ BR) in Ha. rewrite Ea in Ha. destruct Ha as [|[|[]]]; auto.
Qed.
Lemma no_phi_entry : ~ has_phi e.
Proof. intros (p & Kp & Op). destruct (br_phi _ _ _ BR e p Kp Op) as (l & r & x & y & Ea & _). rewrite (br_entry _ _ _ BR) in Ea. discriminate. Qed.
Lemma phi_step b x k bs : next b = [x] -> region next x k bs -> ~ In b bs -> single_entry next b (b :: bs) -> has_phi x -> bs = [] /\ k = Some x.
Proof.
  intros E R N SE Hp. destruct (phi_preds x Hp) as (l & r & Nlr & Hl & Hr & _).
  assert (K : In x bs -> False).
  { intros Ix. assert (Q : forall a, In x (next a) -> a = b).
    { intros a Ha. destruct (SE a x (or_intror Ix) Ha) as [[|Ka]|Kx]; auto.
      - exfalso. apply (no_cycle a x Ha). now apply (region_from next x k bs).
      - subst x. contradiction. }
    apply Nlr. transitivity b; [auto|symmetry; auto]. }
  inversion R; subst; auto; exfalso; apply K; now left.
Qed.
Lemma no_phi_branch b l r : next b = [l; r] -> ~ has_phi l /\ ~ has_phi r.
Proof.
  intros E. assert (G : forall x, In x (next b) -> has_phi x -> False).
  { intros x Hx Hp. destruct (phi_preds x Hp) as (l' & r' & Nlr & Kl & Kr & Ko & Dl & Dr). destruct (Ko b Hx) as [->| ->]; congruence. }
  split; intros Hp; [apply (G l)|apply (G r)]; auto; rewrite E; cbn; auto.
Qed.
(** The second way of a test for an optional output is empty. *)
Lemma optional_empty b l r j k bl br bj a : next b = [l; r] -> region next l (Some j) bl -> region next r (Some j) br -> region next j k bj -> In j bj ->
  NoDup (b :: bl ++ br ++ bj) -> (forall m, k = Some m -> ~ In m (b :: bl ++ br ++ bj)) -> single_entry next b (b :: bl ++ br ++ bj) ->
  In r (next a) -> a <> b -> r = j /\ br = [].
Proof.
  intros E Hl Hr Hj Inj ND Nm SE Ha Nab.
  pose proof (parts b bl br bj ND) as ((B1 & B2 & B3) & P1 & P2 & P3).
  destruct (head_right next r j br Hr) as [K|K]; auto. exfalso.
  pose proof (entry_right next b l r j k bl br bj E Hl Hr Hj Inj ND Nm SE) as ER.
  assert (Kr : In r (b :: bl ++ br ++ bj)) by (right; rewrite !in_app_iff; auto).
  destruct (inside_of next b l r j k bl br bj Hl Hr Hj Inj Nm SE a r) as [->|[[Ka [X|X]]|[[Ka _]|[Ka X]]]]; auto.
  - intros ->. contradiction.
  - exact (P1 r X K).
  - rewrite X in K. exact (P3 j K Inj).
  - apply (no_cycle a r Ha). now apply (region_from next r (Some j) br).
  - exact (P3 r K X).
Qed.

(** ** Chains of phi functions *)
Inductive feeds : name -> name -> Prop :=
| feeds_one x p : op_of g p = OPhi -> In x (args g p) -> feeds x p
| feeds_more x q p : op_of g q = OPhi -> In x (args g q) -> feeds q p -> feeds x p.

Lemma feeds_phi x p : feeds x p -> op_of g p = OPhi.
Proof. induction 1; auto. Qed.
Lemma phi_arg x q t : op_of g q = OPhi -> In x (args g q) -> In x (ops_of c t) -> exists t1, In q (ops_of c t1) /\ next t = [t1].
Proof.
  intros Oq Ix Kx. destruct (br_phi_use _ _ _ BR x q Oq Ix) as ((t1 & Kq) & _). exists t1. split; auto.
  destruct (br_phi _ _ _ BR t1 q Kq Oq) as (l & r & a & b & Ea & Nlr & Dl & Dr & Eq & Ka & Kb). rewrite Eq in Ix.
  destruct Ix as [<-|[<-|[]]].
  - now rewrite (block_unique t l a Kx Ka).
  - now rewrite (block_unique t r b Kx Kb).
Qed.
Lemma phi_args_apart x y q t : op_of g q = OPhi -> In x (args g q) -> In y (args g q) -> In x (ops_of c t) -> In y (ops_of c t) -> x = y.
Proof.
  intros Oq Ix Iy Kx Ky. destruct (br_phi_use _ _ _ BR x q Oq Ix) as ((t1 & Kq) & _).
  destruct (br_phi _ _ _ BR t1 q Kq Oq) as (l & r & a & b & Ea & Nlr & Dl & Dr & Eq & Ka & Kb). rewrite Eq in Ix, Iy.
  destruct Ix as [<-|[<-|[]]], Iy as [<-|[<-|[]]]; auto; exfalso; apply Nlr.
  - rewrite <- (block_unique t l a Kx Ka). now apply (block_unique t r b).
  - rewrite <- (block_unique t l a Ky Ka). now apply (block_unique t r b).
Qed.
Lemma feeds_block x p t : feeds x p -> In x (ops_of c t) -> exists u t1, In p (ops_of c u) /\ next t = [t1] /\ reach next t1 u.
Proof.
  intros F. revert t. induction F as [x p Op Ix|x q p Oq Ix F IH]; intros t Kx.
  - destruct (phi_arg x p t Op Ix Kx) as (t1 & Kp & E). exists t1, t1. split; auto. split; auto. constructor.
  - destruct (phi_arg x q t Oq Ix Kx) as (t1 & Kq & E). destruct (IH t1 Kq) as (u & t2 & Kp & E2 & R). exists u, t1. split; auto. split; auto.
    apply reach_next with t2; auto. rewrite E2. now left.
Qed.
(** A phi function is reached from one value of a block at most. *)
Lemma feeds_inj x p : feeds x p -> forall y t, In x (ops_of c t) -> In y (ops_of c t) -> feeds y p -> x = y.
Proof.
  assert (Up : forall q p t1 t, In q (ops_of c t1) -> In p (ops_of c t1) -> next t = [t1] -> feeds q p -> False).
  { intros q p' t1 t Kq Kp _ F. destruct (feeds_block q p' t1 F Kq) as (u & t2 & Kp2 & E2 & R). pose proof (block_unique _ _ _ Kp Kp2) as ->.
    apply (no_cycle u t2); auto. rewrite E2. now left. }
  induction 1 as [x p Op Ix|x q p Oq Ix F IH]; intros y t Kx Ky Fy.
  - destruct (phi_arg x p t Op Ix Kx) as (t1 & Kp & E). inversion Fy as [y' p' Op' Iy|y' q' p' Oq' Iy Fq]; subst.
    + now apply (phi_args_apart x y p t).
    + destruct (phi_arg y q' t Oq' Iy Ky) as (t2 & Kq & E2). rewrite E in E2. injection E2 as <-. destruct (Up q' p t1 t Kq Kp E Fq).
  - destruct (phi_arg x q t Oq Ix Kx) as (t1 & Kq & E). inversion Fy as [y' p' Op' Iy|y' q' p' Oq' Iy Fq]; subst.
    + destruct (phi_arg y p t Op' Iy Ky) as (t2 & Kp & E2). rewrite E in E2. injection E2 as <-. destruct (Up q p t1 t Kq Kp E F).
    + destruct (phi_arg y q' t Oq' Iy Ky) as (t2 & Kq' & E2). rewrite E in E2. injection E2 as <-.
      assert (q = q') by (apply (IH q' t1); auto). subst q'. now apply (phi_args_apart x y q t).
Qed.

(** The blocks where enclosing branches end, the innermost first: chains of phi functions go through them. *)
Fixpoint stacked (K : list nat) : Prop :=
  match K with
  | [] => True
  | m :: K => (forall x, next m = [x] -> has_phi x -> hd_error K = Some x) /\ stacked K
  end.
Lemma feeds_stack x p : feeds x p -> forall t K, In x (ops_of c t) -> (forall y, next t = [y] -> has_phi y -> hd_error K = Some y) -> stacked K ->
  exists u, In u K /\ In p (ops_of c u).
Proof.
  induction 1 as [x p Op Ix|x q p Oq Ix F IH]; intros t K Kx Hn St.
  - destruct (phi_arg x p t Op Ix Kx) as (t1 & Kp & E). assert (Hp : has_phi t1) by (exists p; auto). specialize (Hn t1 E Hp).
    destruct K as [|m K]; [discriminate|]. injection Hn as ->. exists t1. split; auto. now left.
  - destruct (phi_arg x q t Oq Ix Kx) as (t1 & Kq & E). assert (Hp : has_phi t1) by (exists q; auto). specialize (Hn t1 E Hp).
    destruct K as [|m K]; [discriminate|]. injection Hn as ->. destruct St as [S1 S2]. destruct (IH t1 K Kq S1 S2) as (u & Hu & Kp). exists u. split; auto. now right.
Qed.

(** ** The phi functions a value is assigned to *)
Lemma sort_names_in l x : In x (sort_names l) <-> In x l.
Proof.
  assert (I : forall y l, In x (insert_name y l) <-> x = y \/ In x l).
  { intros y l'. induction l' as [|z t IH]; cbn; [intuition congruence|]. destruct (y <=? z); cbn in *; [intuition congruence|]. rewrite IH. intuition congruence. }
  induction l as [|y t IH]; cbn; [tauto|]. rewrite I, IH. intuition congruence.
Qed.
Lemma mapM_In {X Y} (f : X -> outcome Y) l r : mapM f l = Ok r -> (forall x, In x l -> exists y, f x = Ok y /\ In y r) /\ (forall y, In y r -> exists x, In x l /\ f x = Ok y).
Proof.
  revert r. induction l as [|a l IH]; intros r E; cbn in E.
  - injection E as <-. split; [intros x []|intros y []].
  - binv E. binv E. injection E as <-. destruct (IH _ E1) as [I1 I2]. split.
    + intros z [<-|Hz]; [exists x; split; auto; now left|]. destruct (I1 z Hz) as (y & Ey & Iy). exists y. split; auto. now right.
    + intros y [<-|Hy]; [exists a; split; auto; now left|]. destruct (I2 y Hy) as (z & Iz & Ez). exists z. split; auto. now right.
Qed.
Lemma is_phi_spec o : is_phi o = true <-> o = OPhi.
Proof. destruct o; cbn; split; congruence. Qed.
Lemma phi_consumer v w : In w (filter (fun x => is_phi (op_of g x)) (sort_names (cons_of g v))) <-> op_of g w = OPhi /\ In v (args g w).
Proof. rewrite filter_In, sort_names_in, is_phi_spec, (br_use _ _ _ BR). tauto. Qed.
Lemma sorted_all v : forallb (fun x => is_phi (op_of g x)) (sort_names (cons_of g v)) = forallb (fun x => is_phi (op_of g x)) (cons_of g v).
Proof.
  destruct (forallb _ (cons_of g v)) eqn:E.
  - rewrite forallb_forall in *. intros x Hx. apply E. now apply sort_names_in.
  - apply not_true_iff_false. intros K. apply not_true_iff_false in E. apply E. rewrite forallb_forall in *. intros x Hx. apply K. now apply sort_names_in.
Qed.
Lemma conditional_outputs_spec : forall fuel v l, conditional_outputs fuel g v = Ok l ->
  forall p, In p l <-> declares_phi c p = true /\ (p = v \/ feeds v p).
Proof.
  induction fuel as [|f IH]; intros v l E p; [discriminate|]. cbn [conditional_outputs] in E. binv E. injection E as <-.
  rewrite in_app_iff. rewrite sorted_all. apply mapM_In in E0. destruct E0 as [M1 M2]. split.
  - intros [H|H].
    + apply in_concat in H. destruct H as (y & Hy & Hp). destruct (M2 y Hy) as (w & Hw & Ew). apply phi_consumer in Hw. destruct Hw as [Ow Iw].
      apply (IH w y Ew p) in Hp. destruct Hp as [Dp [->|Fp]]; split; auto; right; [now apply feeds_one|now apply feeds_more with w].
    + unfold declares_phi. destruct (forallb _ (cons_of g v)) eqn:Ef; cbn [orb] in H; [contradiction|]. destruct (is_phi (op_of g v)) eqn:Ev; cbn in H; [|contradiction].
      destruct H as [<-|[]]. rewrite Ev, Ef. auto.
  - intros [Dp [->|Fp]].
    + right. unfold declares_phi in Dp. apply andb_true_iff in Dp. destruct Dp as [D1 D2]. rewrite D1. apply negb_true_iff in D2. rewrite D2. cbn. auto.
    + left. apply in_concat. inversion Fp as [x1 p1 Op Ix|x1 q p1 Oq Ix F]; subst.
      * destruct (M1 p) as (y & Ey & Iy); [now apply phi_consumer|]. exists y. split; auto. apply (IH p y Ey). auto.
      * destruct (M1 q) as (y & Ey & Iy); [now apply phi_consumer|]. exists y. split; auto. apply (IH q y Ey). auto.
Qed.
Lemma declares_read p w : op_of g p = OPhi -> op_of g w <> OPhi -> In p (args g w) -> declares_phi c p = true.
Proof.
  intros Op Ow Ip. unfold declares_phi. rewrite Op. cbn. apply negb_true_iff. apply not_true_iff_false. intros K. rewrite forallb_forall in K.
  apply Ow, is_phi_spec, K. now apply (br_use _ _ _ BR).
Qed.
End Blocks.
