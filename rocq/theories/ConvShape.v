(** Control flow graphs as functions: what inserting a branch in front of a block, or in front of the entry, does to
    their paths.  No operations yet. *)
From Coq Require Import List Arith Bool Lia.
From Verif Require Import Outcome IrModel CfgModel CfgSpec MergeProofs.
Import ListNotations.
Open Scope nat_scope.

(** The blocks from [t] up to one without ancestors. *)
Inductive upath (up : nat -> list nat) : nat -> list nat -> Prop :=
| up_root t : up t = [] -> upath up t [t]
| up_step t a p : In a (up t) -> upath up a p -> upath up t (t :: p).

Definition via (x j : nat) (p : list nat) : Prop := exists p1 p2, p = p1 ++ x :: j :: p2.
Definition dom (up : nat -> list nat) (u t : nat) : Prop := forall p, upath up t p -> In u p.
Definition enters (down up : nat -> list nat) (j i t : nat) : Prop :=
  forall p, upath up t p -> exists x, nth_error (down j) i = Some x /\ via x j p.
Definition splits (down up : nat -> list nat) (j b t : nat) : Prop :=
  forall p, upath up t p -> exists i x, i < 2 /\ nth_error (down j) i = Some x /\ via x j p /\ (i = 0 <-> In b p).

Record shape (n : nat) (down up : nat -> list nat) (e : nat) : Prop := {
  sh_edge : forall a x, In x (down a) <-> In a (up x);
  sh_down : forall a, NoDup (down a);
  sh_up : forall a, NoDup (up a);
  sh_range : forall a x, In x (down a) -> a < n /\ x < n;
  sh_region : exists bs, region down e None bs /\ forall t, In t bs <-> t < n;
  sh_root : up e = [];
  sh_entry : e < n;
  sh_exit : forall t, t < n -> down t = [] -> t = 0;
  sh_zero : 0 < n /\ down 0 = []
}.

Lemma via_cons x j a p : via x j p -> via x j (a :: p).
Proof. intros (p1 & p2 & ->). exists (a :: p1), p2. reflexivity. Qed.
Lemma upath_head up t p : upath up t p -> exists q, p = t :: q.
Proof. inversion 1; subst; eauto. Qed.
Lemma via_in x j p : via x j p -> In x p /\ In j p.
Proof. intros (p1 & p2 & ->). rewrite !in_app_iff. cbn. auto. Qed.

Lemma region_exit_outside next b k bs : region next b k bs -> forall m, k = Some m -> ~ In m bs.
Proof.
  induction 1 as [m|b E|b x k bs E R IH Nb Nk|b x y m k bl br bj E Rl IHl Rr IHr Rm IHm Im ND Nk]; intros z Ez; auto; [discriminate|].
  intros [->|K]; [congruence|]. exact (IH z Ez K).
Qed.
Lemma region_nodup next b k bs : region next b k bs -> NoDup bs.
Proof. induction 1; auto; repeat constructor; auto. Qed.

(** Every block but the first has an edge into it. *)
Lemma region_reached_edge next b k bs : region next b k bs -> forall t, In t bs -> t <> b -> ~ forall a, ~ In t (next a).
Proof.
  induction 1 as [m|b E|b x k bs E R IH Nb Nk|b x y m k bl br bj E Rl IHl Rr IHr Rm IHm Im ND Nk]; intros t Ht N C.
  - contradiction.
  - destruct Ht as [|[]]; auto.
  - destruct Ht as [|Ht]; auto. destruct (Nat.eq_dec t x) as [->|Nx]; [apply (C b); rewrite E; now left|]. exact (IH t Ht Nx C).
  - destruct Ht as [|Ht]; auto. rewrite !in_app_iff in Ht. destruct Ht as [Ht|[Ht|Ht]].
    + destruct (Nat.eq_dec t x) as [->|Nx]; [apply (C b); rewrite E; now left|]. exact (IHl t Ht Nx C).
    + destruct (Nat.eq_dec t y) as [->|Nx]; [apply (C b); rewrite E; right; now left|]. exact (IHr t Ht Nx C).
    + destruct (Nat.eq_dec t m) as [->|Nx]; [|exact (IHm t Ht Nx C)].
      pose proof (region_reaches next x m bl Rl) as Rx. clear - Rx C E.
      assert (K : forall a c, reach next a c -> a = c \/ exists z, In c (next z)).
      { induction 1 as [|a z c Hz R IH]; auto. right. destruct IH as [->|]; eauto. }
      destruct (K _ _ Rx) as [<-|(z & Hz)]; [apply (C b); rewrite E; now left|exact (C z Hz)].
Qed.

Lemma nodup_map_replace (l : list nat) o j : NoDup l -> ~ In j l -> NoDup (map (fun x => if x =? o then j else x) l).
Proof.
  induction 1 as [|x t Hx ND IH]; intros Hj; cbn; constructor.
  - rewrite in_map_iff. intros (y & E & Hy). cbn in Hj.
    destruct (Nat.eqb_spec x o), (Nat.eqb_spec y o); subst; try tauto. 
  - apply IH. cbn in Hj. tauto.
Qed.

Section Diamond.
Variables (n : nat) (down up down' up' : nat -> list nat) (e o : nat).
Notation l := n.
Notation r := (S n).
Notation j := (S (S n)).
Definition redir (x : nat) : nat := if x =? o then j else x.
Hypothesis H : shape n down up e.
Hypothesis Ho : o < n.
Hypothesis Dj : down' j = [l; r].
Hypothesis Dl : down' l = [o].
Hypothesis Dr : down' r = [o].
Hypothesis Dt : forall t, t <> j -> t <> l -> t <> r -> down' t = map redir (down t).
Hypothesis Uo : up' o = [l; r].
Hypothesis Ul : up' l = [j].
Hypothesis Ur : up' r = [j].
Hypothesis Uj : up' j = up o.
Hypothesis Ut : forall t, t <> o -> t <> l -> t <> r -> t <> j -> up' t = up t.

Lemma up_range x a : In a (up x) -> a < n /\ x < n.
Proof. intros E. apply (sh_edge _ _ _ _ H) in E. apply (sh_range _ _ _ _ H) in E. tauto. Qed.
Lemma down_out t : n <= t -> down t = [].
Proof. intros L. destruct (down t) as [|x q] eqn:E; auto. assert (In x (down t)) as K by (rewrite E; now left). apply (sh_range _ _ _ _ H) in K. lia. Qed.
Lemma up_out t : n <= t -> up t = [].
Proof. intros L. destruct (up t) as [|x q] eqn:E; auto. assert (In x (up t)) as K by (rewrite E; now left). apply up_range in K. lia. Qed.

Definition old (t : nat) : bool := Nat.ltb t n.

Lemma old_lt t : t < n -> old t = true.
Proof. intros L. unfold old. now apply Nat.ltb_lt. Qed.
Lemma old_ge t : n <= t -> old t = false.
Proof. intros L. unfold old. now apply Nat.ltb_ge. Qed.

(** Without the three new blocks a path is one of the old graph. *)
Lemma diamond_contract : forall t q, upath up' t q ->
  (t < n -> upath up t (filter old q)) /\ (t = l \/ t = r \/ t = j -> upath up o (o :: filter old q)).
Proof.
  induction 1 as [t E|t a q Ha Q [IH1 IH2]].
  - split.
    + intros L. cbn [filter]. rewrite old_lt by auto. apply up_root. destruct (Nat.eq_dec t o) as [->|N]; [congruence|]. rewrite <- Ut by lia. exact E.
    + intros [->|[->| ->]]; try congruence. cbn [filter]. rewrite old_ge by lia. apply up_root. congruence.
  - split.
    + intros L. cbn [filter]. rewrite old_lt by auto. destruct (Nat.eq_dec t o) as [->|N].
      * rewrite Uo in Ha. apply IH2. destruct Ha as [<-|[<-|[]]]; auto.
      * rewrite Ut in Ha by lia. apply up_step with a; auto. apply IH1. apply up_range in Ha. tauto.
    + intros [->|[->| ->]]; cbn [filter]; rewrite old_ge by lia.
      * rewrite Ul in Ha. destruct Ha as [<-|[]]. auto.
      * rewrite Ur in Ha. destruct Ha as [<-|[]]. auto.
      * rewrite Uj in Ha. apply up_step with a; auto. apply IH1. apply up_range in Ha. tauto.
Qed.
Lemma diamond_path t q : upath up' t q -> t < n -> upath up t (filter old q).
Proof. intros Q L. now apply diamond_contract. Qed.

Lemma via_inv x i t a p : via x i (t :: a :: p) -> (x = t /\ i = a) \/ via x i (a :: p).
Proof.
  intros ([|y p1] & p2 & E); cbn in E; injection E as E1 E2; [left; split; congruence|right].
  exists p1, p2. exact E2.
Qed.
Lemma via_single x i t : ~ via x i [t].
Proof. intros (p1 & p2 & E). apply (f_equal (@length nat)) in E. rewrite app_length in E. cbn in E. lia. Qed.
Lemma via_head x i p : via x i (x :: i :: p).
Proof. exists [], p. reflexivity. Qed.

Lemma diamond_via : forall t q, upath up' t q -> forall x i, 
  (t < n -> via x i (filter old q) -> via (redir x) i q) /\
  (t = l \/ t = r \/ t = j -> via x i (o :: filter old q) -> via (redir x) i q).
Proof.
  induction 1 as [t E|t a q Ha Q IH]; intros x i.
  - split.
    + intros L. cbn [filter]. rewrite old_lt by auto. intros V. now apply via_single in V.
    + intros [->|[->| ->]]; cbn [filter]; rewrite old_ge by lia; intros V; now apply via_single in V.
  - split.
    + intros L. cbn [filter]. rewrite old_lt by auto. intros V. destruct (Nat.eq_dec t o) as [->|N].
      * apply via_cons. apply (proj2 (IH x i)); auto. rewrite Uo in Ha. destruct Ha as [<-|[<-|[]]]; auto.
      * rewrite Ut in Ha by lia. assert (La : a < n) by (apply up_range in Ha; tauto).
        destruct (upath_head _ _ _ Q) as [q' ->]. cbn [filter] in V. rewrite (old_lt a) in V by auto.
        apply via_inv in V. destruct V as [[-> ->]|V].
        -- unfold redir. destruct (Nat.eqb_spec t o); [contradiction|]. apply via_head.
        -- apply via_cons. apply (proj1 (IH x i)); auto. cbn [filter]. rewrite (old_lt a) by auto. exact V.
    + intros [->|[->| ->]]; cbn [filter]; rewrite old_ge by lia; intros V.
      * apply via_cons. apply (proj2 (IH x i)); auto. rewrite Ul in Ha. destruct Ha as [<-|[]]; auto.
      * apply via_cons. apply (proj2 (IH x i)); auto. rewrite Ur in Ha. destruct Ha as [<-|[]]; auto.
      * rewrite Uj in Ha. assert (La : a < n) by (apply up_range in Ha; tauto).
        destruct (upath_head _ _ _ Q) as [q' ->]. cbn [filter] in V. rewrite (old_lt a) in V by auto.
        apply via_inv in V. destruct V as [[-> ->]|V].
        -- unfold redir. rewrite Nat.eqb_refl. apply via_head.
        -- apply via_cons. apply (proj1 (IH x i)); auto. cbn [filter]. rewrite (old_lt a) by auto. exact V.
Qed.

Lemma in_old x q : In x (filter old q) -> In x q.
Proof. rewrite filter_In. tauto. Qed.
Lemma in_old_iff x q : x < n -> In x (filter old q) <-> In x q.
Proof. intros L. rewrite filter_In, old_lt by auto. tauto. Qed.
Lemma dom_diamond u t : t < n -> dom up u t -> dom up' u t.
Proof. intros L D q Q. apply in_old. apply D. now apply diamond_path. Qed.
Lemma down_redir i k x : nth_error (down i) k = Some x -> nth_error (down' i) k = Some (redir x).
Proof.
  intros E. assert (L : i < n). { apply nth_error_In in E. apply (sh_range _ _ _ _ H) in E. tauto. }
  rewrite Dt by lia. rewrite nth_error_map, E. reflexivity.
Qed.
Lemma enters_diamond i k t : t < n -> enters down up i k t -> enters down' up' i k t.
Proof.
  intros L E q Q. destruct (E _ (diamond_path t q Q L)) as (x & Ex & V). exists (redir x).
  split; [now apply down_redir|]. now apply (proj1 (diamond_via t q Q x i)).
Qed.
Lemma splits_diamond i b t : t < n -> b < n -> splits down up i b t -> splits down' up' i b t.
Proof.
  intros L Lb E q Q. destruct (E _ (diamond_path t q Q L)) as (k & x & Lk & Ex & V & I). exists k, (redir x).
  split; [auto|]. split; [now apply down_redir|]. split; [now apply (proj1 (diamond_via t q Q x i))|].
  rewrite I. now apply in_old_iff.
Qed.
Lemma enters_left : enters down' up' j 0 l.
Proof.
  intros q Q. exists l. rewrite Dj. split; [reflexivity|].
  inversion Q as [? E|? a q' Ha Q']; subst; [congruence|]. rewrite Ul in Ha. destruct Ha as [<-|[]].
  destruct (upath_head _ _ _ Q') as [q2 ->]. apply via_head.
Qed.
Lemma enters_right : enters down' up' j 1 r.
Proof.
  intros q Q. exists r. rewrite Dj. split; [reflexivity|].
  inversion Q as [? E|? a q' Ha Q']; subst; [congruence|]. rewrite Ur in Ha. destruct Ha as [<-|[]].
  destruct (upath_head _ _ _ Q') as [q2 ->]. apply via_head.
Qed.
Lemma length_diamond t : t < n -> length (down' t) = length (down t).
Proof. intros L. rewrite Dt by lia. apply map_length. Qed.

(** Structured control flow stays structured. *)
Definition expand (bs : list nat) : list nat := flat_map (fun x => if x =? o then [j; l; r; o] else [x]) bs.
Lemma expand_app a b : expand (a ++ b) = expand a ++ expand b.
Proof. unfold expand. apply flat_map_app. Qed.
Lemma expand_in t bs : In t (expand bs) <-> (In t bs \/ (In o bs /\ (t = j \/ t = l \/ t = r))).
Proof.
  unfold expand. rewrite in_flat_map. split.
  - intros (x & Hx & Ht). destruct (Nat.eqb_spec x o) as [->|].
    + destruct Ht as [<-|[<-|[<-|[<-|[]]]]]; auto.
    + destruct Ht as [<-|[]]; auto.
  - intros [Ht|[Hx Ht]].
    + exists t. split; auto. destruct (Nat.eqb_spec t o) as [->|]; cbn; auto.
    + exists o. split; auto. rewrite Nat.eqb_refl. cbn. intuition.
Qed.
Lemma redir_in x bs : In x bs -> In (redir x) (expand bs).
Proof. intros Hx. apply expand_in. unfold redir. destruct (Nat.eqb_spec x o) as [->|]; auto. Qed.
Lemma expand_nodup bs : (forall t, In t bs -> t < n) -> NoDup bs -> NoDup (expand bs).
Proof.
  induction bs as [|x t IH]; intros Hb ND; [constructor|]. inversion ND as [|? ? Nx ND']; subst.
  assert (Nt : NoDup (expand t)) by (apply IH; auto; intros y Hy; apply Hb; right; auto).
  assert (Hx : ~ In x (expand t)).
  { rewrite expand_in. intros [K|[_ K]]; [auto|]. specialize (Hb x (or_introl eq_refl)). lia. }
  change (expand (x :: t)) with ((if x =? o then [j; l; r; o] else [x]) ++ expand t).
  destruct (Nat.eqb_spec x o) as [->|N]; [|constructor; auto].
  assert (Hn : forall y, y = j \/ y = l \/ y = r -> ~ In y (expand t)).
  { intros y Ey. rewrite expand_in. intros [K|[K _]]; [|auto]. specialize (Hb y (or_intror K)). lia. }
  assert (Hj := Hn j (or_introl eq_refl)). assert (Hl := Hn l (or_intror (or_introl eq_refl))). assert (Hr := Hn r (or_intror (or_intror eq_refl))).
  cbn [app]. constructor; [cbn; intros [|[|[|]]]; auto; lia|]. constructor; [cbn; intros [|[|]]; auto; lia|].
  constructor; [cbn; intros [|]; auto; lia|]. constructor; auto.
Qed.

Lemma region_wrap k rest : region down' o k (o :: rest) -> NoDup (j :: l :: r :: o :: rest) ->
  (forall m, k = Some m -> ~ In m (j :: l :: r :: o :: rest)) -> region down' j k (j :: l :: r :: o :: rest).
Proof.
  intros R ND Nk. apply (region_branch down' j l r o k [l] [r] (o :: rest)); auto.
  - apply region_step with o; auto; [constructor|intros K; injection K; lia].
  - apply region_step with o; auto; [constructor|intros K; injection K; lia].
  - now left.
Qed.
Lemma expand_cons b bs : expand (b :: bs) = (if b =? o then [j; l; r; o] else [b]) ++ expand bs.
Proof. reflexivity. Qed.
Lemma region_diamond : forall b k bs, region down b k bs -> (forall t, In t bs -> t < n) -> (forall m, k = Some m -> m < n) -> b < n ->
  region down' (redir b) (option_map redir k) (expand bs).
Proof.
  assert (OUT : forall b k bs, region down b k bs -> (forall t, In t bs -> t < n) -> (forall m, k = Some m -> m < n) ->
                forall m, option_map redir k = Some m -> ~ In m (expand bs)).
  { intros b k bs R Lb Lk m Em. destruct k as [m'|]; [|discriminate]. cbn in Em. injection Em as <-. specialize (Lk m' eq_refl).
    pose proof (region_exit_outside down _ _ _ R m' eq_refl) as N. rewrite expand_in. unfold redir.
    destruct (Nat.eqb_spec m' o) as [->|]; intros [K|[K K']]; auto; [specialize (Lb _ K); lia|lia]. }
  assert (WR : forall b k bs, b < n -> (forall t, In t (b :: bs) -> t < n) -> NoDup (b :: bs) ->
               (forall m, option_map redir k = Some m -> ~ In m (expand (b :: bs))) ->
               region down' b (option_map redir k) (b :: expand bs) -> region down' (redir b) (option_map redir k) (expand (b :: bs))).
  { intros b k bs L Lb ND N R. pose proof (expand_nodup (b :: bs) Lb ND) as ND'. rewrite expand_cons in *. unfold redir at 1.
    destruct (Nat.eqb_spec b o) as [->|Nb]; cbn [app] in *; [|exact R]. now apply region_wrap. }
  induction 1 as [m|b E|b x k bs E R IH Nb Nk|b x y m k bl br bj E Rl IHl Rr IHr Rm IHm Im ND Nk]; intros Lb Lk Lt.
  - constructor.
  - assert (Eb : down' b = []) by (rewrite Dt by lia; now rewrite E).
    apply (WR b None []); auto; [repeat constructor; auto|discriminate|]. now apply region_exit.
  - assert (Lx : x < n) by (eapply proj2; apply (sh_range _ _ _ _ H b x); rewrite E; now left).
    assert (R' : region down' (redir x) (option_map redir k) (expand bs)).
    { apply IH; auto. intros t Ht; apply Lb; right; auto. }
    assert (Eb : down' b = [redir x]) by (rewrite Dt by lia; now rewrite E).
    assert (Rb : region down b k (b :: bs)) by (apply region_step with x; auto).
    apply WR; auto.
    + apply (region_nodup down b k); auto.
    + apply (OUT b k); auto.
    + apply region_step with (redir x); auto.
      * rewrite expand_in. intros [|[_ K]]; [auto|lia].
      * destruct k as [z|]; [|discriminate]. cbn. intros K. injection K as K. unfold redir in K. destruct (Nat.eqb_spec z o); [lia|]. congruence.
  - assert (Lx : x < n) by (eapply proj2; apply (sh_range _ _ _ _ H b x); rewrite E; now left).
    assert (Ly : y < n) by (eapply proj2; apply (sh_range _ _ _ _ H b y); rewrite E; right; now left).
    assert (Lbl : forall t, In t bl -> t < n) by (intros t Ht; apply Lb; right; rewrite !in_app_iff; auto).
    assert (Lbr : forall t, In t br -> t < n) by (intros t Ht; apply Lb; right; rewrite !in_app_iff; auto).
    assert (Lbj : forall t, In t bj -> t < n) by (intros t Ht; apply Lb; right; rewrite !in_app_iff; auto).
    assert (Lm : forall z, Some m = Some z -> z < n) by (intros z Ez; injection Ez as <-; auto).
    specialize (IHl Lbl Lm Lx). specialize (IHr Lbr Lm Ly). specialize (IHm Lbj Lk (Lbj m Im)).
    assert (Eb : down' b = [redir x; redir y]) by (rewrite Dt by lia; now rewrite E).
    assert (Rb : region down b k (b :: bl ++ br ++ bj)) by (apply region_branch with x y m; auto).
    pose proof (OUT b k _ Rb Lb Lk) as N'. pose proof (expand_nodup _ Lb ND) as ND'.
    apply WR; auto. rewrite !expand_app. apply region_branch with (redir x) (redir y) (redir m); auto.
    + now apply redir_in.
    + rewrite expand_cons, !expand_app in ND'. destruct (Nat.eqb_spec b o); [|exact ND'].
      cbn [app] in ND'. inversion ND' as [|? ? _ ND1]; subst. inversion ND1 as [|? ? _ ND2]; subst. inversion ND2; subst. auto.
    + intros z Ez. specialize (N' z Ez). intros K. apply N'. rewrite expand_cons, !expand_app. apply in_or_app.
      destruct K as [<-|K]; [left|now right]. destruct (Nat.eqb_spec b o) as [->|]; cbn; auto.
Qed.

Lemma shape_diamond : shape (S (S (S n))) down' up' (redir e).
Proof.
  destruct H as [SE SD SU SR (bs & R & Rall) SRt Sen Sex S0].
  assert (Lb : forall t, In t bs -> t < n) by (intros t; apply Rall).
  constructor.
  - intros a x. split; intros Hx.
    + destruct (Nat.eq_dec a j) as [->|Nj]; [rewrite Dj in Hx; destruct Hx as [<-|[<-|[]]]; rewrite ?Ul, ?Ur; now left|].
      destruct (Nat.eq_dec a l) as [->|Nl]; [rewrite Dl in Hx; destruct Hx as [<-|[]]; rewrite Uo; now left|].
      destruct (Nat.eq_dec a r) as [->|Nr]; [rewrite Dr in Hx; destruct Hx as [<-|[]]; rewrite Uo; right; now left|].
      rewrite Dt in Hx by auto. apply in_map_iff in Hx. destruct Hx as (y & <- & Hy). pose proof (SR _ _ Hy) as [La Ly].
      apply SE in Hy. unfold redir. destruct (Nat.eqb_spec y o) as [->|Ny]; [now rewrite Uj|]. now rewrite Ut by lia.
    + destruct (Nat.eq_dec x o) as [->|No]; [rewrite Uo in Hx; destruct Hx as [<-|[<-|[]]]; rewrite ?Dl, ?Dr; now left|].
      destruct (Nat.eq_dec x l) as [->|Nl]; [rewrite Ul in Hx; destruct Hx as [<-|[]]; rewrite Dj; now left|].
      destruct (Nat.eq_dec x r) as [->|Nr]; [rewrite Ur in Hx; destruct Hx as [<-|[]]; rewrite Dj; right; now left|].
      destruct (Nat.eq_dec x j) as [->|Nj].
      * rewrite Uj in Hx. pose proof (up_range _ _ Hx). apply SE in Hx. rewrite Dt by lia. apply in_map_iff. exists o.
        unfold redir. now rewrite Nat.eqb_refl.
      * rewrite Ut in Hx by auto. pose proof (up_range _ _ Hx). apply SE in Hx. rewrite Dt by lia. apply in_map_iff. exists x.
        unfold redir. destruct (Nat.eqb_spec x o); [contradiction|]. auto.
  - intros a. destruct (Nat.eq_dec a j) as [->|Nj]; [rewrite Dj; repeat constructor; cbn; lia|].
    destruct (Nat.eq_dec a l) as [->|Nl]; [rewrite Dl; repeat constructor; auto|].
    destruct (Nat.eq_dec a r) as [->|Nr]; [rewrite Dr; repeat constructor; auto|].
    rewrite Dt by auto. apply nodup_map_replace; auto. intros K. apply SR in K. lia.
  - intros a. destruct (Nat.eq_dec a o) as [->|No]; [rewrite Uo; repeat constructor; cbn; lia|].
    destruct (Nat.eq_dec a l) as [->|Nl]; [rewrite Ul; repeat constructor; auto|].
    destruct (Nat.eq_dec a r) as [->|Nr]; [rewrite Ur; repeat constructor; auto|].
    destruct (Nat.eq_dec a j) as [->|Nj]; [rewrite Uj; auto|]. rewrite Ut by auto. auto.
  - intros a x Hx. destruct (Nat.eq_dec a j) as [->|Nj]; [rewrite Dj in Hx; destruct Hx as [<-|[<-|[]]]; lia|].
    destruct (Nat.eq_dec a l) as [->|Nl]; [rewrite Dl in Hx; destruct Hx as [<-|[]]; lia|].
    destruct (Nat.eq_dec a r) as [->|Nr]; [rewrite Dr in Hx; destruct Hx as [<-|[]]; lia|].
    rewrite Dt in Hx by auto. apply in_map_iff in Hx. destruct Hx as (y & <- & Hy). pose proof (SR _ _ Hy) as [La Ly].
    unfold redir. destruct (Nat.eqb_spec y o); lia.
  - exists (expand bs). split; [apply (region_diamond e None bs); auto; discriminate|].
    intros t. rewrite expand_in, !Rall. lia.
  - unfold redir. destruct (Nat.eqb_spec e o) as [E|N]; [rewrite Uj, <- E; auto|]. now rewrite Ut by lia.
  - unfold redir. destruct (Nat.eqb_spec e o); lia.
  - intros t Lt Et. destruct (Nat.eq_dec t j) as [->|Nj]; [congruence|]. destruct (Nat.eq_dec t l) as [->|Nl]; [congruence|].
    destruct (Nat.eq_dec t r) as [->|Nr]; [congruence|]. rewrite Dt in Et by auto. apply map_eq_nil in Et. apply Sex; auto. lia.
  - split; [lia|]. rewrite Dt by lia. destruct S0 as [_ ->]. reflexivity.
Qed.
End Diamond.

(** A branch in front of the entry: either the new block [b] or directly the old entry. *)
Section Entry.
Variables (n : nat) (down up down' up' : nat -> list nat) (e : nat).
Notation b := n.
Notation j := (S n).
Hypothesis H : shape n down up e.
Hypothesis Dj : down' j = [b; e].
Hypothesis Db : down' b = [e].
Hypothesis Dt : forall t, t <> j -> t <> b -> down' t = down t.
Hypothesis Ue : up' e = [b; j].
Hypothesis Ub : up' b = [j].
Hypothesis Uj : up' j = [].
Hypothesis Ut : forall t, t <> e -> t <> b -> t <> j -> up' t = up t.

Lemma entry_path : forall t q, upath up' t q ->
  (t < n -> exists q0, upath up t (q0 ++ [e]) /\ (forall x, In x q0 -> x < n) /\ (q = q0 ++ [e; b; j] \/ q = q0 ++ [e; j])) /\
  (t = b -> q = [b; j]) /\ (t = j -> q = [j]).
Proof.
  pose proof (sh_entry _ _ _ _ H) as Le. pose proof (sh_root _ _ _ _ H) as Re.
  induction 1 as [t E|t a q Ha Q (IH1 & IH2 & IH3)].
  - split; [|split]; try congruence. intros L. destruct (Nat.eq_dec t e) as [->|N]; [congruence|]. exfalso.
    rewrite Ut in E by lia. destruct (sh_region _ _ _ _ H) as (bs & R & Rall).
    apply (region_reached_edge down e None bs R t); [now apply Rall|auto|]. intros a Hx. apply (sh_edge _ _ _ _ H) in Hx. rewrite E in Hx. contradiction.
  - split; [|split].
    + intros L. destruct (Nat.eq_dec t e) as [->|N].
      * rewrite Ue in Ha. exists []. split; [now apply up_root|]. split; [intros x []|].
        destruct Ha as [<-|[<-|[]]]; [rewrite (IH2 eq_refl)|rewrite (IH3 eq_refl)]; auto.
      * rewrite Ut in Ha by lia. assert (La : a < n) by (apply (sh_edge _ _ _ _ H) in Ha; apply (sh_range _ _ _ _ H) in Ha; tauto).
        destruct (IH1 La) as (q0 & P & Lq & Eq). exists (t :: q0). split; [|split].
        -- cbn. apply up_step with a; auto.
        -- intros x [<-|Hx]; auto.
        -- destruct Eq as [->| ->]; auto.
    + intros ->. rewrite Ub in Ha. destruct Ha as [<-|[]]. now rewrite (IH3 eq_refl).
    + intros ->. rewrite Uj in Ha. contradiction.
Qed.
Lemma dom_entry u t : t < n -> dom up u t -> dom up' u t.
Proof.
  intros L D q Q. destruct (entry_path t q Q) as (K & _). destruct (K L) as (q0 & P & _ & Eq). specialize (D _ P).
  rewrite in_app_iff in D. destruct Eq as [->| ->]; rewrite in_app_iff; cbn in *; tauto.
Qed.
Lemma via_app x i p q : via x i p -> via x i (p ++ q).
Proof. intros (p1 & p2 & ->). exists p1, (p2 ++ q). rewrite <- app_assoc. reflexivity. Qed.
Lemma via_entry t q x i : t < n -> upath up' t q -> exists p, upath up t p /\ (via x i p -> via x i q) /\ (forall y, y < n -> In y p <-> In y q).
Proof.
  intros L Q. pose proof (sh_entry _ _ _ _ H) as Le. destruct (entry_path t q Q) as (K & _). destruct (K L) as (q0 & P & _ & Eq).
  exists (q0 ++ [e]). split; [auto|]. split.
  - intros V. destruct Eq as [->| ->]; [change [e; b; j] with ([e] ++ [b; j])|change [e; j] with ([e] ++ [j])]; rewrite app_assoc; now apply via_app.
  - intros y Ly. destruct Eq as [->| ->]; rewrite !in_app_iff; cbn; intuition lia.
Qed.
Lemma enters_entry i k t : t < n -> i < n -> enters down up i k t -> enters down' up' i k t.
Proof.
  intros L Li E q Q. destruct (sh_region _ _ _ _ H) as (bs & _ & _).
  destruct (entry_path t q Q) as (K & _). destruct (K L) as (q0 & P & _ & Eq). destruct (E _ P) as (x & Ex & V).
  exists x. rewrite Dt by lia. split; auto. destruct (via_entry t q x i L Q) as (p & P' & V' & _).
  destruct Eq as [->| ->]; [change [e; b; j] with ([e] ++ [b; j])|change [e; j] with ([e] ++ [j])]; rewrite app_assoc; now apply via_app.
Qed.
Lemma splits_entry i c t : t < n -> i < n -> c < n -> splits down up i c t -> splits down' up' i c t.
Proof.
  intros L Li Lc E q Q. pose proof (sh_entry _ _ _ _ H) as Le. destruct (entry_path t q Q) as (K & _). destruct (K L) as (q0 & P & _ & Eq).
  destruct (E _ P) as (k & x & Lk & Ex & V & I). exists k, x. rewrite Dt by lia. split; auto. split; auto. split.
  - destruct Eq as [->| ->]; [change [e; b; j] with ([e] ++ [b; j])|change [e; j] with ([e] ++ [j])]; rewrite app_assoc; now apply via_app.
  - rewrite I. destruct Eq as [->| ->]; rewrite !in_app_iff; cbn; intuition lia.
Qed.
Lemma splits_new t : t < n -> splits down' up' j b t.
Proof.
  intros L q Q. pose proof (sh_entry _ _ _ _ H) as Le. destruct (entry_path t q Q) as (K & _). destruct (K L) as (q0 & P & Lq & Eq).
  rewrite Dj. destruct Eq as [->| ->].
  - exists 0, b. split; [lia|]. split; [reflexivity|]. split; [exists (q0 ++ [e]), []; now rewrite <- app_assoc|].
    rewrite in_app_iff. cbn. tauto.
  - exists 1, e. split; [lia|]. split; [reflexivity|]. split; [exists q0, []; reflexivity|].
    split; [discriminate|]. rewrite in_app_iff. cbn. intros [K'|K']; [specialize (Lq _ K'); lia|lia].
Qed.
Lemma length_entry t : t < n -> length (down' t) = length (down t).
Proof. intros L. now rewrite Dt by lia. Qed.

Lemma shape_entry : shape (S (S n)) down' up' j.
Proof.
  destruct H as [SE SD SU SR (bs & R & Rall) SRt Sen Sex S0].
  assert (Rb : forall b k bs, region down b k bs -> (forall t, In t bs -> t < n) -> region down' b k bs).
  { induction 1 as [m|a E|a x k l0 E R0 IH Nb Nk|a x y m k bl br bj E Rl IHl Rr IHr Rm IHm Im ND Nk]; intros Lb.
    - constructor.
    - constructor. assert (a < n) by (apply Lb; now left). now rewrite Dt by lia.
    - assert (a < n) by (apply Lb; now left). apply region_step with x; auto; [now rewrite Dt by lia|]. apply IH. intros t Ht. apply Lb. now right.
    - assert (a < n) by (apply Lb; now left). apply region_branch with x y m; auto; [now rewrite Dt by lia|apply IHl|apply IHr|apply IHm];
        intros t Ht; apply Lb; right; rewrite !in_app_iff; auto. }
  assert (Out : forall t, n <= t -> down t = []).
  { intros t L. destruct (down t) as [|x q] eqn:E; auto. assert (In x (down t)) as K by (rewrite E; now left). apply SR in K. lia. }
  constructor.
  - intros a x. split; intros Hx.
    + destruct (Nat.eq_dec a j) as [->|Nj]; [rewrite Dj in Hx; destruct Hx as [<-|[<-|[]]]; rewrite ?Ub, ?Ue; cbn; auto|].
      destruct (Nat.eq_dec a b) as [->|Nb]; [rewrite Db in Hx; destruct Hx as [<-|[]]; rewrite Ue; now left|].
      rewrite Dt in Hx by auto. pose proof (SR _ _ Hx). apply SE in Hx. rewrite Ut; auto; try lia. intros ->. rewrite SRt in Hx. contradiction.
    + destruct (Nat.eq_dec x e) as [->|Ne]; [rewrite Ue in Hx; destruct Hx as [<-|[<-|[]]]; rewrite ?Db, ?Dj; cbn; auto|].
      destruct (Nat.eq_dec x b) as [->|Nb]; [rewrite Ub in Hx; destruct Hx as [<-|[]]; rewrite Dj; now left|].
      destruct (Nat.eq_dec x j) as [->|Nj]; [rewrite Uj in Hx; contradiction|]. rewrite Ut in Hx by auto. apply SE in Hx.
      pose proof (SR _ _ Hx). rewrite Dt by lia. auto.
  - intros a. destruct (Nat.eq_dec a j) as [->|Nj]; [rewrite Dj; repeat constructor; cbn; lia|].
    destruct (Nat.eq_dec a b) as [->|Nb]; [rewrite Db; repeat constructor; auto|]. now rewrite Dt by auto.
  - intros a. destruct (Nat.eq_dec a e) as [->|Ne]; [rewrite Ue; repeat constructor; cbn; lia|].
    destruct (Nat.eq_dec a b) as [->|Nb]; [rewrite Ub; repeat constructor; auto|].
    destruct (Nat.eq_dec a j) as [->|Nj]; [rewrite Uj; constructor|]. now rewrite Ut by auto.
  - intros a x Hx. destruct (Nat.eq_dec a j) as [->|Nj]; [rewrite Dj in Hx; destruct Hx as [<-|[<-|[]]]; lia|].
    destruct (Nat.eq_dec a b) as [->|Nb]; [rewrite Db in Hx; destruct Hx as [<-|[]]; lia|].
    rewrite Dt in Hx by auto. apply SR in Hx. lia.
  - exists (j :: [b] ++ [] ++ bs). split.
    + apply region_branch with b e e; auto.
      * apply region_step with e; auto; [constructor|intros K; injection K; lia].
      * constructor.
      * apply Rb; auto. intros t. apply Rall.
      * now apply Rall.
      * cbn. constructor; [cbn; intros [|K]; [lia|apply Rall in K; lia]|]. constructor; [intros K; apply Rall in K; lia|]. eapply region_nodup; eauto.
      * discriminate.
    + intros t. cbn. rewrite Rall. lia.
  - exact Uj.
  - lia.
  - intros t Lt Et. destruct (Nat.eq_dec t j) as [->|Nj]; [congruence|]. destruct (Nat.eq_dec t b) as [->|Nb]; [congruence|].
    rewrite Dt in Et by auto. apply Sex; auto. lia.
  - split; [lia|]. rewrite Dt by lia. tauto.
Qed.
End Entry.

Lemma shape_single down up : (forall t, down t = []) -> (forall t, up t = []) -> shape 1 down up 0.
Proof.
  intros D U. constructor; auto.
  - intros a x. now rewrite D, U.
  - intros a. rewrite D. constructor.
  - intros a. rewrite U. constructor.
  - intros a x Hx. rewrite D in Hx. contradiction.
  - exists [0]. split; [now constructor|]. intros t. cbn. lia.
  - lia.
Qed.
