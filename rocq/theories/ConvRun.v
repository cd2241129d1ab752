(** Executing what the converter made. *)
From Coq Require Import String List Arith ZArith Bool Lia Permutation.
From Verif Require Import Outcome NumProofs IrModel IrSpec IrProofs CfgModel CfgSpec MergeProofs CountProofs ConvModel ConvSpec ConvShape ConvBlocks ConvGroup ConvInv ConvCopies.
Import ListNotations.
Open Scope nat_scope.

(** Structured control flow has no cycles. *)
Lemma region_forward next b k bs : region next b k bs -> forall a x, In a bs -> In x (next a) -> k = Some x \/ before bs a x.
Proof.
  induction 1 as [m|b E|b y k bs E R IH Nb Nk|b l r m k bl br bj E Rl IHl Rr IHr Rm IHm Im ND Nk]; intros a x Ha Hx.
  - contradiction.
  - destruct Ha as [<-|[]]. rewrite E in Hx. contradiction.
  - destruct Ha as [<-|Ha].
    + rewrite E in Hx. destruct Hx as [<-|[]]. destruct (region_start _ _ _ _ R) as [K|K]; auto. right. now apply before_first.
    + destruct (IH a x Ha Hx) as [K|K]; auto. right. now apply before_front.
  - destruct Ha as [<-|Ha].
    + right. apply before_first. rewrite E in Hx. rewrite !in_app_iff. destruct Hx as [<-|[<-|[]]].
      * destruct (region_start _ _ _ _ Rl) as [K|K]; auto. injection K as ->. auto.
      * destruct (region_start _ _ _ _ Rr) as [K|K]; auto. injection K as ->. auto.
    + rewrite !in_app_iff in Ha. destruct Ha as [Ha|[Ha|Ha]].
      * right. apply before_front. destruct (IHl a x Ha Hx) as [K|K]; [injection K as ->; apply before_app; auto; rewrite in_app_iff; auto|now apply before_left].
      * right. apply before_front. apply before_right. destruct (IHr a x Ha Hx) as [K|K]; [injection K as ->; apply before_app; auto|now apply before_left].
      * destruct (IHm a x Ha Hx) as [K|K]; auto. right. apply before_front. apply before_right. now apply before_right.
Qed.
Lemma region_two next b k bs : region next b k bs -> forall a, In a bs -> length (next a) <= 2.
Proof.
  induction 1 as [m|b E|b y k bs E R IH Nb Nk|b l r m k bl br bj E Rl IHl Rr IHr Rm IHm Im ND Nk]; intros a Ha.
  - contradiction.
  - destruct Ha as [<-|[]]. rewrite E. cbn. lia.
  - destruct Ha as [<-|Ha]; auto. rewrite E. cbn. lia.
  - destruct Ha as [<-|Ha]; [rewrite E; cbn; lia|]. rewrite !in_app_iff in Ha. destruct Ha as [Ha|[Ha|Ha]]; auto.
Qed.
Fixpoint index (x : nat) (l : list nat) : nat := match l with [] => 0 | y :: t => if y =? x then 0 else S (index x t) end.
Lemma index_lt x l : In x l -> index x l < length l.
Proof. induction l as [|y t IH]; cbn; [tauto|]. intros H. destruct (Nat.eqb_spec y x); [lia|]. destruct H; [congruence|]. apply IH in H. lia. Qed.
Lemma index_app_in x l1 l2 : In x l1 -> index x (l1 ++ l2) = index x l1.
Proof. induction l1 as [|y t IH]; cbn; [tauto|]. intros H. destruct (Nat.eqb_spec y x); auto. f_equal. apply IH. destruct H; [congruence|auto]. Qed.
Lemma index_app_out x l1 l2 : ~ In x l1 -> index x (l1 ++ l2) = length l1 + index x l2.
Proof. induction l1 as [|y t IH]; cbn; auto. intros H. destruct (Nat.eqb_spec y x); [tauto|]. rewrite IH; tauto. Qed.
Lemma before_index l a x : NoDup l -> before l a x -> index a l < index x l.
Proof.
  intros ND (l1 & l2 & -> & Ha). rewrite index_app_in by auto. pose proof (index_lt a l1 Ha). rewrite index_app_out; [lia|].
  intros Hx. apply NoDup_remove_2 in ND. rewrite in_app_iff in ND. tauto.
Qed.
Lemma shape_acyclic n down up e : shape n down up e -> acyclic down.
Proof.
  intros S. destruct (sh_region _ _ _ _ S) as (bs & R & Ha). pose proof (region_nodup _ _ _ _ R) as ND.
  exists (fun a => length bs - index a bs). intros a x Hx. destruct (sh_range _ _ _ _ S a x Hx) as [La Lx]. apply Ha in La, Lx.
  destruct (region_forward _ _ _ _ R a x La Hx) as [K|K]; [discriminate|]. apply before_index in K; auto. apply index_lt in La, Lx. lia.
Qed.

Lemma upath_ranked down up rank t p : (forall a x, In x (down a) <-> In a (up x)) -> (forall a x, In x (down a) -> rank x < rank a) -> upath up t p -> NoDup p /\ forall u, In u p -> rank t <= rank u.
Proof.
  intros SE Hr. induction 1 as [t E|t a p Ha Up [ND IH]].
  - split; [constructor; auto; constructor|]. intros u [<-|[]]. auto.
  - pose proof (Hr a t (proj2 (SE a t) Ha)) as L. split.
    + constructor; auto. intros K. apply IH in K. lia.
    + intros u [<-|K]; auto. apply IH in K. lia.
Qed.

Section Run.
Variables (A : algebra) (Q : selecting A) (g0 : graph) (r : name -> D A) (opts : list (nat * string)) (c : cfg) (n e : nat).
Notation g := (c_vals c).
Notation down := (desc c).
Notation up := (anc c).
Notation ops := (ops_of c).
Hypothesis S : settled A Q g0 r opts down up n e g ops.
Hypothesis Placed : forall v a, In a (args g v) -> parent g a <> 0.
Let C := s_core _ _ _ _ _ _ _ _ _ _ _ S.
Let Sh := c_shape _ _ _ _ _ _ _ _ _ C.

(** Where an execution went, the last block first. *)
Definition choices (p : list nat) : Prop :=
  forall x J l jv cond, via x J p -> length (down J) = 2 -> ops J = l ++ [jv] -> args g jv = [cond] ->
    nth_error (down J) (if truth Q (r cond) then 0 else 1) = Some x.
Definition done (E : env A) (l : list name) : Prop := forall x, In x l -> E x = Some (r x).
Definition hand (x : name) : list (nat * string * D A) := handed A (op_of g x) (r x).
Definition came (q : list nat) : option nat := match q with [] => None | a :: _ => Some a end.

Lemma read_done (E : env A) l : (forall a, In a l -> E a = Some (r a)) -> read_all A E l = Some (map r l).
Proof. induction l as [|a t IH]; intros H; cbn; auto. rewrite (H a (or_introl eq_refl)). rewrite IH; auto. intros x K. apply H. now right. Qed.

Lemma operand_there v t a : In v (ops t) -> op_of g v <> OPhi -> In a (args g v) -> exists u, parent g a = Datatypes.S u /\ dom up u t /\ In a (ops u) /\ (u = t -> before (ops t) a v).
Proof.
  intros Hv Np Ha. pose proof (Placed v a Ha) as P. destruct (parent g a) as [|u] eqn:Eu; [contradiction|]. exists u. split; auto.
  apply (c_avail _ _ _ _ _ _ _ _ _ C v t a u Hv Np Ha Eu).
Qed.

Lemma same_nth {B} (l : list B) i j x : NoDup l -> nth_error l i = Some x -> nth_error l j = Some x -> i = j.
Proof. intros ND E1 E2. apply (proj1 (NoDup_nth_error l) ND); [|congruence]. apply nth_error_Some. congruence. Qed.

Lemma value_ready b q E l1 v l2 : upath up b (b :: q) -> choices (b :: q) -> done E (concat (map ops q) ++ l1) -> ops b = l1 ++ v :: l2 ->
  exists xs, read_all A E (sources c (came q) v) = Some xs /\ result A (op_of g v) xs = Some (r v).
Proof.
  intros Up Ch Dn Eb. assert (Kv : In v (ops b)) by (rewrite Eb, in_app_iff; right; now left).
  assert (Dq : forall u x, In u q -> In x (ops u) -> E x = Some (r x)).
  { intros u x Hu Hx. apply Dn. rewrite in_app_iff. left. apply in_concat. exists (ops u). split; auto. now apply in_map. }
  assert (NP : op_of g v <> OPhi -> exists xs, read_all A E (args g v) = Some xs /\ sem A (op_of g v) xs = r v).
  { intros Np. exists (map r (args g v)). split; [|symmetry; apply (c_val _ _ _ _ _ _ _ _ _ C v b); auto]. apply read_done. intros a Ha.
    destruct (operand_there v b a Kv Np Ha) as (u & _ & Du & Ka & Bf). destruct (Du _ Up) as [Ebu|Ku]; [|apply (Dq u); auto].
    subst u. specialize (Bf eq_refl). rewrite Eb in Bf. assert (NDb := c_nodup _ _ _ _ _ _ _ _ _ C b). cbn beta in NDb. rewrite Eb in NDb.
    apply Dn. rewrite in_app_iff. right. destruct Bf as (m1 & m2 & Em & Hm).
    assert (m1 = l1).
    { clear -Em NDb. revert m1 Em. induction l1 as [|y t IH]; intros m1 Em.
      - destruct m1 as [|z m1]; auto. exfalso. cbn in Em, NDb. injection Em as Z Em. subst z. inversion NDb as [|? ? K]; subst. apply K. rewrite in_app_iff. right. now left.
      - destruct m1 as [|z m1]. + exfalso. cbn in Em, NDb. injection Em as Z Em. subst y. inversion NDb as [|? ? K]; subst. apply K. rewrite in_app_iff. right. now left.
        + cbn in Em, NDb. injection Em as Z Em. subst z. f_equal. apply IH; auto. now inversion NDb. }
    now subst m1. }
  unfold sources, result. destruct (op_of g v) eqn:Ov; try (destruct NP as (xs & X & Y); [discriminate|]; exists xs; split; [destruct (came q); exact X|rewrite <- Y; destruct xs as [|? [|? ?]]; reflexivity]; fail).
  clear NP. destruct (c_phi _ _ _ _ _ _ _ _ _ C v b Kv Ov) as (L & R & cl & cr & J & l & jv & cd & Y1 & Y2 & Y3 & Y4 & Y5 & Y6 & Y7 & Y8 & Y9 & Y10 & Y11).
  inversion Up as [? Eu|? a p Ha Up']; subst; [rewrite Y5 in Eu; discriminate|]. destruct (upath_head _ _ _ Up') as (q' & ->). cbn [came]. rewrite Y5 in Ha.
  pose proof (c_own _ _ _ _ _ _ _ _ _ C cl L Y2) as P1. pose proof (c_own _ _ _ _ _ _ _ _ _ C cr R Y3) as P2.
  rewrite Y1. cbn [filter]. rewrite P1, P2. cbn [Nat.add]. change (Datatypes.S L =? Datatypes.S a) with (L =? a). change (Datatypes.S R =? Datatypes.S a) with (R =? a).
  assert (Dec : forall x k, nth_error (down J) k = Some x -> via x J (a :: q') -> k = if truth Q (r cd) then 0 else 1).
  { intros x k Ex V. apply (same_nth (down J) k _ x (sh_down _ _ _ _ Sh J) Ex). apply (Ch x J l jv cd); auto. now apply via_cons. }
  destruct Ha as [<-|[<-|[]]].
  - rewrite Nat.eqb_refl. destruct (Nat.eqb_spec R L); [congruence|]. exists [r cl]. split; [cbn; rewrite (Dq L cl); auto; now left|].
    destruct (Y9 _ Up') as (x & Ex & V). specialize (Dec x 0 Ex V). rewrite Y11. destruct (truth Q (r cd)); [auto|discriminate].
  - rewrite Nat.eqb_refl. destruct (Nat.eqb_spec L R); [congruence|]. exists [r cr]. split; [cbn; rewrite (Dq R cr); auto; now left|].
    destruct (Y10 _ Up') as (x & Ex & V). specialize (Dec x 1 Ex V). rewrite Y11. destruct (truth Q (r cd)); [discriminate|auto].
Qed.

Lemma block_runs b q : upath up b (b :: q) -> choices (b :: q) -> forall l2 l1 E outs, done E (concat (map ops q) ++ l1) -> ops b = l1 ++ l2 ->
  exists E', run_block A c (came q) l2 (E, outs) = Some (E', outs ++ flat_map hand l2) /\ done E' (concat (map ops q) ++ ops b).
Proof.
  intros Up Ch. induction l2 as [|v l2 IH]; intros l1 E outs Dn Eb.
  - exists E. rewrite app_nil_r in Eb. rewrite Eb. cbn. rewrite app_nil_r. auto.
  - destruct (value_ready b q E l1 v l2 Up Ch Dn Eb) as (xs & X & Y). cbn [run_block fst snd]. rewrite X, Y.
    destruct (IH (l1 ++ [v]) (set_env A E v (r v)) (outs ++ handed A (op_of g v) (r v))) as (E' & Z & W).
    + intros x Hx. unfold set_env. destruct (Nat.eqb_spec x v) as [->|N]; auto. apply Dn. rewrite !in_app_iff in *. destruct Hx as [|[|[K|[]]]]; auto. congruence.
    + now rewrite <- app_assoc.
    + exists E'. split; auto. rewrite Z. cbn [flat_map]. unfold hand at 2. now rewrite <- app_assoc.
Qed.

Lemma runs rank : (forall a x, In x (down a) -> rank x < rank a) -> forall k b q E outs, rank b < k -> b < n -> upath up b (b :: q) -> choices (b :: q) -> done E (concat (map ops q)) ->
  exists p E', upath up 0 p /\ choices p /\ (exists p', p = p' ++ b :: q) /\ done E' (concat (map ops p)) /\
    run A Q c k (came q) b (E, outs) = Some (E', outs ++ flat_map (fun t => flat_map hand (ops t)) (rev (firstn (length p - length q) p))).
Proof.
  intros Hr. induction k as [|k IH]; intros b q E outs Lk Lb Up Ch Dn; [lia|].
  destruct (block_runs b q Up Ch (ops b) [] E outs) as (E1 & X & D1); [now rewrite app_nil_r|auto|].
  assert (D1' : done E1 (concat (map ops (b :: q)))) by (intros x Hx; apply D1; cbn in Hx; rewrite in_app_iff in *; tauto).
  cbn [run]. rewrite X. cbn [fst]. unfold next_block.
  assert (Len : length (down b) <= 2) by (destruct (sh_region _ _ _ _ Sh) as (bs & R & Ha); apply (region_two _ _ _ _ R); now apply Ha).
  assert (Step : forall x, In x (down b) -> choices (x :: b :: q) -> exists p E', upath up 0 p /\ choices p /\ (exists p', p = p' ++ b :: q) /\ done E' (concat (map ops p)) /\
    run A Q c k (Some b) x (E1, outs ++ flat_map hand (ops b)) = Some (E', outs ++ flat_map (fun t => flat_map hand (ops t)) (rev (firstn (length p - length q) p)))).
  { intros x Hx Chx. destruct (IH x (b :: q) E1 (outs ++ flat_map hand (ops b))) as (p & E' & Y1 & Y2 & (p' & Y3) & Y4 & Y5); auto.
    - specialize (Hr b x Hx). lia.
    - apply (sh_range _ _ _ _ Sh b x Hx).
    - apply up_step with b; auto. now apply (sh_edge _ _ _ _ Sh).
    - exists p, E'. split; auto. split; auto. split; [exists (p' ++ [x]); now rewrite <- app_assoc|]. split; auto. cbn [came] in Y5. rewrite Y5. f_equal. f_equal. rewrite <- app_assoc. f_equal.
      subst p. rewrite !app_length. cbn [length].
      replace (length p' + Datatypes.S (Datatypes.S (length q)) - length q) with (length p' + 2) by lia.
      replace (length p' + Datatypes.S (Datatypes.S (length q)) - Datatypes.S (length q)) with (length p' + 1) by lia.
      rewrite !firstn_app_2. cbn [firstn]. change [x; b] with ([x] ++ [b]). rewrite !rev_app_distr, !flat_map_app. cbn. now rewrite !app_nil_r, ?app_assoc. }
  destruct (down b) as [|x [|y [|z dd]]] eqn:Ed; [| | |cbn in Len; lia].
  - assert (b = 0) by (apply (sh_exit _ _ _ _ Sh); auto). subst b. exists (0 :: q), E1. split; auto. split; auto. split; [exists []; auto|]. split; auto.
    f_equal. f_equal. f_equal. cbn [length]. replace (Datatypes.S (length q) - length q) with 1 by lia. cbn. now rewrite app_nil_r.
  - apply Step; [now left|]. intros w J l jv cd V LJ EJ AJ. destruct (via_inv _ _ _ _ _ V) as [[-> ->]|V']; [rewrite Ed in LJ; discriminate|]. apply (Ch w J l jv cd); auto.
  - destruct (c_two _ _ _ _ _ _ _ _ _ C b) as (l & jv & cd & Y1 & Y2 & Y3); [now rewrite Ed|]. rewrite Y1, rev_app_distr. cbn [rev app]. rewrite Y2, Y3.
    assert (Kj : In jv (ops b)) by (rewrite Y1, in_app_iff; right; now left).
    destruct (operand_there jv b cd Kj) as (u & _ & Du & Ku & _); [congruence|rewrite Y3; now left|].
    assert (Ec : E1 cd = Some (r cd)). { apply D1'. apply in_concat. exists (ops u). split; auto. apply in_map. apply Du. exact Up. }
    rewrite Ec, <- Y1. apply Step; [destruct (truth Q (r cd)); [now left|right; now left]|].
    intros w J l' jv' cd' V LJ EJ AJ. destruct (via_inv _ _ _ _ _ V) as [[-> ->]|V']; [|apply (Ch w J l' jv' cd'); auto].
    rewrite Y1 in EJ. apply app_inj_tail in EJ. destruct EJ as [_ <-]. rewrite Y3 in AJ. injection AJ as <-. rewrite Ed. destruct (truth Q (r cd)); reflexivity.
Qed.

Lemma run_total : exists k p E, upath up 0 p /\ choices p /\ NoDup p /\ done E (concat (map ops p)) /\
  run A Q c k None e (start A) = Some (E, flat_map (fun t => flat_map hand (ops t)) (rev p)).
Proof.
  destruct (shape_acyclic _ _ _ _ Sh) as (rank & Hr).
  destruct (runs rank Hr (Datatypes.S (rank e)) e [] (no_values A) []) as (p & E' & Y1 & Y2 & (p' & Y3) & Y4 & Y5); auto.
  - apply (sh_entry _ _ _ _ Sh).
  - apply up_root. apply (sh_root _ _ _ _ Sh).
  - intros x J l jv cd V. destruct V as (p1 & p2 & V); apply (f_equal (@length nat)) in V; rewrite app_length in V; cbn in V; lia.
  - intros x [].
  - exists (Datatypes.S (rank e)), p, E'. split; auto. split; auto. split; [apply (upath_ranked down up rank 0 p); auto; apply (sh_edge _ _ _ _ Sh)|]. split; auto.
    cbn [came] in Y5. unfold start. rewrite Y5. f_equal. f_equal. cbn [length app]. rewrite Nat.sub_0_r, firstn_all. reflexivity.
Qed.
End Run.
