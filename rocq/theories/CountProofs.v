(** The operation counts of structured control flow are the worst case over all paths. *)
From Coq Require Import List Arith Bool Lia.
From Verif Require Import Outcome IrModel CfgModel CfgSpec MergeProofs.
Import ListNotations.
Open Scope nat_scope.

Section Walks.
Variable next : nat -> list nat.

(** From [b] up to, but without, the block [k], or up to the end. *)
Inductive walk : nat -> option nat -> list nat -> Prop :=
| walk_done m : walk m (Some m) []
| walk_exit b : next b = [] -> walk b None [b]
| walk_step b x k p : In x (next b) -> walk x k p -> k <> Some b -> walk b k (b :: p).

Lemma walk_path b p : walk b None p <-> path next b p.
Proof.
  split.
  - remember None as k. induction 1; try discriminate; [now constructor|]. econstructor; eauto.
  - induction 1; [now constructor|]. econstructor; eauto. discriminate.
Qed.
Lemma walk_inside b k bs : region next b k bs -> forall a p, In a bs \/ k = Some a -> walk a k p -> incl p bs.
Proof.
  intros H a p Ha W. revert Ha. induction W as [m|a E|a x k p Hx W IH N]; intros Ha; [intros y []| |].
  - destruct Ha as [Ha|]; [|discriminate]. intros y [<-|[]]. exact Ha.
  - destruct Ha as [Ha|Ha]; [|contradiction]. intros y [<-|Hy]; [exact Ha|]. apply IH; auto. eapply region_inside; eauto.
Qed.
Lemma walk_app a j k p q : walk a (Some j) p -> walk j k q -> (forall m, k = Some m -> ~ In m p) -> walk a k (p ++ q).
Proof.
  remember (Some j) as t. intros W Wq. revert Heqt. induction W as [m|a E|a x t p Hx W IH N]; intros Et Hm; try discriminate.
  - injection Et as ->. exact Wq.
  - cbn. econstructor; [exact Hx|apply IH; auto|].
    + intros m Ek Hin. apply (Hm m Ek). right. auto.
    + intros Ek. apply (Hm a Ek). left. auto.
Qed.
Lemma walk_split l j bl k : region next l (Some j) bl -> ~ In j bl -> (forall m, k = Some m -> ~ In m bl) ->
  forall a p, In a bl \/ a = j -> walk a k p -> exists pl pj, p = pl ++ pj /\ walk a (Some j) pl /\ walk j k pj.
Proof.
  intros H Nj Hm a p Ha W. revert Ha Hm. induction W as [m|a E|a x k p Hx W IH N]; intros Ha Hm.
  - destruct Ha as [Ha| ->]; [exfalso; exact (Hm m eq_refl Ha)|]. exists [], []. repeat split; constructor.
  - destruct Ha as [Ha| ->]; [|exists [], [j]; repeat split; constructor; auto].
    pose proof (region_block_reaches next _ _ _ H _ Ha) as R. inversion R; subst; [contradiction|]. rewrite E in H0. contradiction.
  - destruct Ha as [Ha| ->]; [|exists [], (j :: p); repeat split; [constructor|econstructor; eauto]].
    destruct (IH) as (pl & pj & -> & Wl & Wj); auto.
    { destruct (region_inside next _ _ _ H _ _ Ha Hx) as [|E]; auto. injection E as ->. auto. }
    exists (a :: pl), pj. repeat split; auto. econstructor; eauto. intros E. injection E as ->. auto.
Qed.
End Walks.

Lemma in_set_spec b l : in_set b l = true <-> In b l.
Proof. unfold in_set. rewrite existsb_exists. split; [intros (x & H & E); apply Nat.eqb_eq in E; subst; auto|]. intros H. exists b. rewrite Nat.eqb_refl. auto. Qed.
Lemma in_set_false b l : ~ In b l -> in_set b l = false.
Proof. intros H. destruct (in_set b l) eqn:E; auto. apply in_set_spec in E. contradiction. Qed.
Lemma erase_insert b l : ~ In b l -> erase_set b (insert_set b l) = l.
Proof.
  intros H. unfold insert_set. rewrite in_set_false by auto. unfold erase_set. cbn. rewrite Nat.eqb_refl. cbn.
  induction l as [|x t IH]; cbn; auto. destruct (Nat.eqb_spec x b); [subst; cbn in H; tauto|]. cbn. f_equal. apply IH. cbn in H. tauto.
Qed.

Section Count.
Variable c : cfg.
Hypothesis Hac : acyclic (desc c).
Notation next := (desc c).

Lemma weight_cost l v : weight c l v = cost (c_vals c) v l.
Proof. unfold weight, cost. destruct l, (op_of (c_vals c) v); reflexivity. Qed.
Lemma executed_cons l b p : executed c l (b :: p) = block_counts c b l + executed c l p.
Proof.
  unfold executed, block_counts. cbn [map concat]. rewrite map_app, list_sum_app. f_equal. f_equal. apply map_ext. intros. symmetry. apply weight_cost.
Qed.
Lemma executed_app l p q : executed c l (p ++ q) = executed c l p + executed c l q.
Proof. unfold executed. rewrite map_app, concat_app, map_app, list_sum_app. reflexivity. Qed.

Lemma degree : exists D, forall a, length (next a) <= D.
Proof.
  unfold desc, block. induction (c_blocks c) as [|x t [D IH]].
  - exists 0. intros [|a]; cbn; lia.
  - exists (Nat.max (length (b_desc x)) D). intros [|a]; cbn [nth]; [lia|]. specialize (IH a). lia.
Qed.
Lemma merge_found l r m : joins next l r m -> exists F, forall fuel, F <= fuel -> find_merge_point fuel next l r = Ok m.
Proof.
  intros J. destruct Hac as [rank Hr], degree as [D HD].
  exists (S (loads rank D [(l, true); (r, false)])). intros fuel L.
  destruct (find_merge_sound next l r m J fuel) as [E|E]; auto. exfalso. revert E. apply (merge_ends next rank D); auto.
Qed.

Lemma region_count b k bs : region next b k bs -> (forall a, In a bs -> jumps_match c a) ->
  exists W : counts,
    (forall p l, walk next b k p -> executed c l p <= W l) /\
    (forall l, exists p, walk next b k p /\ executed c l p = W l) /\
    (forall stop, (forall a, In a bs -> ~ In a stop) -> (forall m, k = Some m -> In m stop) ->
      exists F, forall fuel, F <= fuel -> count_all fuel c b stop = Ok W).
Proof.
  induction 1 as [m|b E|b x k bs E H IH N Nk|b l r j k bl br bj E Hl IHl Hr IHr Hj IHj Inj ND Nm]; intros Jm.
  - exists no_counts. split; [|split].
    + intros p l W. inversion W; subst; [cbn; lia|congruence].
    + intros l. exists []. split; [constructor|reflexivity].
    + intros stop _ Hs. exists 1. intros [|fuel] L; [lia|]. cbn [count_all]. specialize (Hs m eq_refl). apply in_set_spec in Hs. now rewrite Hs.
  - exists (block_counts c b). split; [|split].
    + intros p l W. inversion W as [| |? x ? q Hx]; subst; [rewrite executed_cons; cbn; lia|]. rewrite E in Hx. contradiction.
    + intros l. exists [b]. split; [now constructor|]. rewrite executed_cons. cbn. lia.
    + intros stop Hs _. exists 1. intros [|fuel] L; [lia|]. cbn [count_all]. rewrite in_set_false by (apply Hs; left; auto). now rewrite E.
  - destruct IH as (W & U & A & C); [intros a Ha; apply Jm; right; auto|].
    exists (increment (block_counts c b) W). split; [|split].
    + intros p l Wk. inversion Wk as [m|? E'|? y ? q Hy Wq]; subst; [congruence|congruence|]. rewrite E in Hy. destruct Hy as [<-|[]].
      rewrite executed_cons. specialize (U _ l Wq). unfold increment. lia.
    + intros l. destruct (A l) as (p & Wp & Ep). exists (b :: p). split; [econstructor; [rewrite E; left; reflexivity|exact Wp|exact Nk]|].
      rewrite executed_cons, Ep. reflexivity.
    + intros stop Hs Hm. destruct (C stop) as [F HF]; [intros a Ha; apply Hs; right; auto|exact Hm|].
      exists (S F). intros [|fuel] L; [lia|]. cbn [count_all]. rewrite in_set_false by (apply Hs; left; auto). rewrite E.
      pose proof (Jm b (or_introl eq_refl)) as Jb. unfold jumps_match in Jb. rewrite E in Jb. destruct Jb as (v & Ev & Nv). rewrite Ev. cbn [bind].
      replace (is_jump (op_of (c_vals c) v)) with false by (destruct (op_of (c_vals c) v); cbn; congruence). rewrite HF by lia. reflexivity.
  - destruct IHl as (Wl & Ul & Al & Cl); [intros a Ha; apply Jm; right; rewrite !in_app_iff; auto|].
    destruct IHr as (Wr & Ur & Ar & Cr); [intros a Ha; apply Jm; right; rewrite !in_app_iff; auto|].
    destruct IHj as (Wj & Uj & Aj & Cj); [intros a Ha; apply Jm; right; rewrite !in_app_iff; auto|].
    assert (Nj : ~ In j bl /\ ~ In j br).
    { inversion ND as [|? ? _ ND']; subst. rewrite app_assoc in ND'. assert (K : ~ In j (bl ++ br)).
      { revert ND' Inj. generalize (bl ++ br). clear. induction l as [|y t IH]; intros ND Hj; [auto|]. inversion ND; subst.
        intros [->|H]; [apply H1; rewrite in_app_iff; auto|]. exact (IH H2 Hj H). }
      rewrite in_app_iff in K. tauto. }
    assert (Kl : forall m, k = Some m -> ~ In m bl) by (intros m Ek Hin; apply (Nm m Ek); right; rewrite !in_app_iff; auto).
    assert (Kr : forall m, k = Some m -> ~ In m br) by (intros m Ek Hin; apply (Nm m Ek); right; rewrite !in_app_iff; auto).
    assert (Kb : k <> Some b) by (intros Ek; apply (Nm b Ek); left; auto).
    exists (increment (increment (block_counts c b) (max_counts Wl Wr)) Wj). split; [|split].
    + intros p lb Wk. inversion Wk as [m|? E'|? y ? q Hy Wq]; subst; [congruence|congruence|]. rewrite E in Hy.
      rewrite executed_cons. unfold increment, max_counts.
      destruct Hy as [<-|[<-|[]]].
      * destruct (walk_split next _ _ _ k Hl (proj1 Nj) Kl l q) as (pl & pj & -> & W1 & W2); auto.
        { destruct (region_start next _ _ _ Hl) as [|X]; auto. injection X as ->. auto. }
        rewrite executed_app. specialize (Ul _ lb W1). specialize (Uj _ lb W2). lia.
      * destruct (walk_split next _ _ _ k Hr (proj2 Nj) Kr r q) as (pl & pj & -> & W1 & W2); auto.
        { destruct (region_start next _ _ _ Hr) as [|X]; auto. injection X as ->. auto. }
        rewrite executed_app. specialize (Ur _ lb W1). specialize (Uj _ lb W2). lia.
    + intros lb. destruct (Al lb) as (pl & W1 & E1), (Ar lb) as (pr & W2 & E2), (Aj lb) as (pj & W3 & E3).
      assert (Il : incl pl bl).
      { eapply (walk_inside next _ _ _ Hl l); [|exact W1]. destruct (region_start next _ _ _ Hl); auto. }
      assert (Ir : incl pr br).
      { eapply (walk_inside next _ _ _ Hr r); [|exact W2]. destruct (region_start next _ _ _ Hr); auto. }
      unfold increment, max_counts. destruct (Nat.max_spec (Wl lb) (Wr lb)) as [[_ M]|[_ M]]; rewrite M.
      * exists (b :: pr ++ pj). split; [|rewrite executed_cons, executed_app; lia].
        econstructor; [rewrite E; right; left; reflexivity| |exact Kb]. eapply walk_app; eauto. intros m Ek Hin. apply (Kr m Ek). auto.
      * exists (b :: pl ++ pj). split; [|rewrite executed_cons, executed_app; lia].
        econstructor; [rewrite E; left; reflexivity| |exact Kb]. eapply walk_app; eauto. intros m Ek Hin. apply (Kl m Ek). auto.
    + intros stop Hs Hm.
      assert (Js : ~ In j stop) by (apply Hs; right; rewrite !in_app_iff; auto).
      assert (Ins : forall x, In x (insert_set j stop) <-> x = j \/ In x stop).
      { intros x. unfold insert_set. rewrite in_set_false by auto. cbn. split; intros [|]; auto. }
      assert (Kj : forall q, Some j = Some q -> In q (insert_set j stop)) by (intros q Eq; injection Eq as <-; apply Ins; auto).
      destruct (Cl (insert_set j stop)) as [Fl HFl]; [|exact Kj|].
      { intros a Ha Hin. apply Ins in Hin. destruct Hin as [->|Hin]; [tauto|]. apply (Hs a); auto. right. rewrite !in_app_iff. auto. }
      destruct (Cr (insert_set j stop)) as [Fr HFr]; [|exact Kj|].
      { intros a Ha Hin. apply Ins in Hin. destruct Hin as [->|Hin]; [tauto|]. apply (Hs a); auto. right. rewrite !in_app_iff. auto. }
      destruct (Cj stop) as [Fj HFj]; [|exact Hm|].
      { intros a Ha. apply Hs. right. rewrite !in_app_iff. auto. }
      assert (J : joins next l r j) by (eapply region_joins; eauto).
      destruct (merge_found _ _ _ J) as [Fm HFm].
      exists (S (Fl + Fr + Fj + Fm)). intros [|fuel] L; [lia|]. cbn [count_all]. rewrite in_set_false by (apply Hs; left; auto). rewrite E.
      pose proof (Jm b (or_introl eq_refl)) as Jb. unfold jumps_match in Jb. rewrite E in Jb. destruct Jb as (v & Ev & Nv). rewrite Ev. cbn [bind]. rewrite Nv. cbn [is_jump].
      rewrite HFm by lia. cbn [bind]. rewrite HFl, HFr by lia. cbn [bind]. rewrite erase_insert by auto. rewrite HFj by lia. reflexivity.
Qed.
End Count.

Lemma count_mono c : forall fuel b stop W, count_all fuel c b stop = Ok W -> forall f, fuel <= f -> count_all f c b stop = Ok W.
Proof.
  induction fuel as [|fuel IH]; intros b stop W E f L; [discriminate|]. destruct f as [|f]; [lia|]. cbn [count_all] in *.
  destruct (in_set b stop); auto. destruct (desc c b) as [|x t] eqn:Ed; auto.
  destruct (last_op c b) as [v| | | |]; cbn [bind] in *; auto.
  destruct (is_jump (op_of (c_vals c) v)).
  - destruct t as [|y [|z t]]; auto.
    destruct (find_merge_point (S fuel) (desc c) x y) as [m| | | |] eqn:Em; cbn [bind] in *; try discriminate.
    assert (Em' : find_merge_point (S f) (desc c) x y = Ok m).
    { unfold find_merge_point in *. rewrite (merge_mono (desc c) (S fuel)); [exact Em|lia|rewrite Em; discriminate]. }
    rewrite Em'. cbn [bind].
    destruct (count_all fuel c x _) as [cl| | | |] eqn:E1; cbn [bind] in *; try discriminate. rewrite (IH _ _ _ E1) by lia. cbn [bind].
    destruct (count_all fuel c y _) as [cr| | | |] eqn:E2; cbn [bind] in *; try discriminate. rewrite (IH _ _ _ E2) by lia. cbn [bind].
    destruct (count_all fuel c m _) as [cm| | | |] eqn:E3; cbn [bind] in *; try discriminate. rewrite (IH _ _ _ E3) by lia. exact E.
  - destruct t; auto. destruct (count_all fuel c x stop) as [cn| | | |] eqn:E1; cbn [bind] in *; try discriminate.
    rewrite (IH _ _ _ E1) by lia. exact E.
Qed.
