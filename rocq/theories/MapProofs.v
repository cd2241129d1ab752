(** Memoised traversals equal plain ones; rebuilding from transformed operands keeps the value. *)
From Coq Require Import String List ZArith Reals Bool Lra Lia.
From Verif Require Import Outcome CheckedIntProofs RationalModel RationalSpec ExprModel ExprSpec ValProofs ExprProofs NumProofs BuildModel BuildProofs PowProofs
  OrderProofs OrderSpec SumSpec SumProofs FuncModel FuncProofs DerivModel DerivSpec DerivFnProofs DerivProofs MapModel MapSpec.
Import ListNotations.

Lemma children_ind (P : expr -> Prop) : (forall e, Forall P (children e) -> P e) -> forall e, P e.
Proof. intros H e. induction e using expr_ind'; apply H; cbn [children]; auto. Qed.

(** ** Memory *)
Section Agree.
Context (I : impl) (n : nat) {St : Type} (Inv : St -> Prop).

Definition agree {A} (m : outcome (A * St)) (p : outcome (A * unit)) : Prop :=
  match m with
  | Ok (d, c) => p = Ok (d, tt) /\ Inv c
  | Throws => p = Throws
  | Dies => p = Dies
  | UB => p = UB
  | NoFuel => p = NoFuel
  end.

Lemma agree_bind {A B} (m : outcome (A * St)) p (k : A * St -> outcome (B * St)) k' :
  agree m p -> (forall d c, Inv c -> agree (k (d, c)) (k' (d, tt))) -> agree (bind m k) (bind p k').
Proof. destruct m as [[d c]| | | |]; cbn; [intros [-> H]; cbn; auto|intros ->; reflexivity..]. Qed.
Lemma agree_ret {A} (d : A) c : Inv c -> agree (Ok (d, c)) (Ok (d, tt)).
Proof. intros H. split; auto. Qed.
Lemma agree_pure {A B} (o : outcome A) c (f : A -> B) : Inv c ->
  agree (let* v := o in Ok (f v, c)) (let* v := o in Ok (f v, tt)).
Proof. intros H. destruct o; cbn; auto. Qed.

Definition simulates (op : strans St) (p : strans unit) (e : expr) : Prop :=
  forall c, Inv c -> agree (op e c) (p e tt).

Lemma tmap_agree op p l : Forall (simulates op p) l -> forall c, Inv c -> agree (tmap op l c) (tmap p l tt).
Proof.
  induction 1 as [|a l Ha _ IH]; intros c Hc; cbn [tmap].
  - apply agree_ret, Hc.
  - apply agree_bind; [apply Ha, Hc|]. intros d c1 Hc1. cbn [fst snd]. apply agree_bind; [apply IH, Hc1|].
    intros ds c2 Hc2. cbn [fst snd]. apply agree_ret, Hc2.
Qed.

Lemma map_agree op p e : Forall (simulates op p) (children e) ->
  forall c, Inv c -> agree (map_children I n op e c) (map_children I n p e tt).
Proof.
  intros H c Hc. destruct e; cbn [map_children children] in *; try (apply agree_ret, Hc).
  all: try (apply agree_bind; [apply tmap_agree; auto|]; intros ds c1 Hc1; cbn [fst snd];
            try apply agree_ret; auto; apply (agree_pure _ _ (fun x => x)); auto; fail).
  all: pose proof (Forall_inv H) as H1; apply Forall_inv_tail in H.
  all: apply agree_bind; [apply H1, Hc|]; intros d1 c1 Hc1; cbn [fst snd].
  all: try (apply (agree_pure _ _ (fun x => x)); auto; fail).
  all: pose proof (Forall_inv H) as H2; apply Forall_inv_tail in H.
  4: { pose proof (Forall_inv H) as H3. apply agree_bind; [apply H2, Hc1|]; intros d2 c2 Hc2; cbn [fst snd].
       apply agree_bind; [apply H3, Hc2|]; intros d3 c3 Hc3; cbn [fst snd]. apply (agree_pure _ _ (fun x => x)); auto. }
  2: { pose proof (Forall_inv H) as H3.
       assert (G : agree (let* x := op e2 c1 in let* y := op e3 (snd x) in let* v := cond_fn d1 (fst x) (fst y) in Ok (v, snd y))
                         (let* x := p e2 tt in let* y := p e3 (snd x) in let* v := cond_fn d1 (fst x) (fst y) in Ok (v, snd y))).
       { apply agree_bind; [apply H2, Hc1|]; intros d2 c2 Hc2; cbn [fst snd].
         apply agree_bind; [apply H3, Hc2|]; intros d3 c3 Hc3; cbn [fst snd]. apply (agree_pure _ _ (fun x => x)); auto. }
       destruct d1; try exact G. destruct b; [apply H2|apply H3]; exact Hc1. }
  all: apply agree_bind; [apply H2, Hc1|]; intros d2 c2 Hc2; cbn [fst snd]; apply (agree_pure _ _ (fun x => x)); auto.
Qed.
End Agree.

Section Memo.
Context (I : impl) (n : nat) (pre : expr -> option expr) (keep : expr -> bool) (keep_pre : bool).

Lemma plain_eq e u : plain I n pre e u = match pre e with Some r => Ok (r, u) | None => map_children I n (plain I n pre) e u end.
Proof. destruct e; reflexivity. Qed.
Lemma memo_eq e c : memo I n pre keep keep_pre e c =
  match (if keep e then lookup I e c else None) with
  | Some d => Ok (d, c)
  | None =>
      match pre e with
      | Some r => Ok (if keep e && keep_pre then emplace I e r c else (r, c))
      | None =>
          let* r := map_children I n (memo I n pre keep keep_pre) e c in
          Ok (if keep e then emplace I e (fst r) (snd r) else r)
      end
  end.
Proof. destruct e; reflexivity. Qed.

Definition consistent (c : list (expr * expr)) : Prop :=
  Forall (fun kd => exact (fst kd) /\ plain I n pre (fst kd) tt = Ok (snd kd, tt)) c.

Lemma consistent_lookup c e d : consistent c -> exact e -> lookup I e c = Some d -> plain I n pre e tt = Ok (d, tt).
Proof.
  intros Hc He H. induction Hc as [|[k d'] c [Hk Hd] _ IH]; [discriminate|]. cbn [lookup fst snd] in *.
  destruct (key_eq I k e) eqn:E; [|auto]. apply (key_eq_iff I) in E; auto. subst. injection H as <-. exact Hd.
Qed.
Lemma consistent_emplace c e d : consistent c -> exact e -> plain I n pre e tt = Ok (d, tt) ->
  fst (emplace I e d c) = d /\ consistent (snd (emplace I e d c)).
Proof.
  intros Hc He Hd. unfold emplace. destruct (lookup I e c) as [w|] eqn:E; cbn.
  - apply consistent_lookup in E; auto. split; [congruence|auto].
  - split; auto. constructor; auto.
Qed.

Lemma exact_children e : exact e -> Forall exact (children e).
Proof.
  destruct e; cbn [exact children]; intros H; auto; try (constructor; auto; fail);
  repeat match goal with H : _ /\ _ |- _ => destruct H end; auto using all_of_Forall.
  all: apply all_of_Forall; auto.
Qed.

Lemma memo_agrees : forall e, exact e -> forall c, consistent c ->
  agree consistent (memo I n pre keep keep_pre e c) (plain I n pre e tt).
Proof.
  induction e as [e IH] using children_ind. intros He c Hc. rewrite memo_eq.
  assert (S : agree consistent
    match pre e with
    | Some r => Ok (if keep e && keep_pre then emplace I e r c else (r, c))
    | None => let* r := map_children I n (memo I n pre keep keep_pre) e c in Ok (if keep e then emplace I e (fst r) (snd r) else r)
    end (plain I n pre e tt)).
  { destruct (pre e) as [r|] eqn:Ep.
    - assert (P : plain I n pre e tt = Ok (r, tt)) by now rewrite plain_eq, Ep. rewrite P.
      destruct (keep e && keep_pre); [|split; auto].
      destruct (consistent_emplace c e r Hc He P) as [E1 E2]. destruct (emplace I e r c); cbn in *. subst. split; auto.
    - assert (M : agree consistent (map_children I n (memo I n pre keep keep_pre) e c) (map_children I n (plain I n pre) e tt)).
      { apply map_agree; auto. apply Forall_forall. intros x Hx. rewrite Forall_forall in IH.
        pose proof (exact_children e He) as Hs. rewrite Forall_forall in Hs. intros c0 Hc0. apply IH; auto. }
      rewrite plain_eq, Ep. assert (P : plain I n pre e tt = map_children I n (plain I n pre) e tt) by now rewrite plain_eq, Ep.
      destruct (map_children I n (memo I n pre keep keep_pre) e c) as [[d c1]| | | |]; cbn in M |- *; auto.
      destruct M as [M Hc1]. rewrite M in P. destruct (keep e); [|split; auto]. cbn [fst snd].
      destruct (consistent_emplace c1 e d Hc1 He P) as [E1 E2]. destruct (emplace I e d c1); cbn in *. subst. split; auto. }
  destruct (keep e); [|exact S]. destruct (lookup I e c) as [d|] eqn:E; [|exact S].
  cbn. split; auto. apply consistent_lookup in E; auto.
Qed.
End Memo.

(** ** Values *)
Lemma vfun_mono f l m : Forall2 refines l m -> refines (vfun f l) (vfun f m).
Proof.
  intros H. assert (T : vfun f m = Top \/ l = m).
  { destruct H as [|a b l m Hab H]; [right; reflexivity|]. destruct b as [x| |]; [|left; destruct f; reflexivity..].
    apply refines_Rv in Hab. subst a. destruct H as [|a b l m Hab H]; [right; reflexivity|].
    destruct f; try (left; reflexivity). destruct b as [y| |]; [|left; reflexivity..]. apply refines_Rv in Hab. subst a.
    destruct H; [right; reflexivity|left; reflexivity]. }
  destruct T as [->| ->]; [apply refines_top|apply refines_refl].
Qed.
Lemma vrel_mono o a a' b b' : refines a a' -> refines b b' -> refines (vrel o a b) (vrel o a' b').
Proof.
  intros Ha Hb. destruct a' as [x| |], b' as [y| |]; try (apply refines_top). apply refines_Rv in Ha, Hb. subst. apply refines_refl.
Qed.
Lemma vcond_mono c c' a a' b b' : refines c c' -> refines a a' -> refines b b' -> refines (vcond c a b) (vcond c' a' b').
Proof.
  intros Hc Ha Hb. destruct c' as [x| |]; try (apply refines_top). apply refines_Rv in Hc. subst c. unfold vcond.
  destruct (Req_EM_T x 1); auto. destruct (Req_EM_T x 0); auto.
Qed.
Lemma reals_mono l m xs : Forall2 refines l m -> reals m = Some xs -> reals l = Some xs.
Proof.
  intros H. revert xs. induction H as [|a b l m Hab _ IH]; intros xs E; [exact E|]. cbn [reals] in *.
  destruct b as [y| |]; try discriminate. apply refines_Rv in Hab. subst a. destruct (reals m) as [ys|]; [|discriminate].
  now rewrite (IH ys).
Qed.

Lemma sound_weaken s d v w : sound s d v -> refines v w -> sound s d w.
Proof. intros [W R] H. split; auto. eapply refines_trans; eauto. Qed.

Section Value.
Context (I : impl) (HI : impl_ok I) (n : nat) (s s' : env).
Hypothesis Henv : env_ok s.
Hypothesis Hfun : ef s' = ef s.

Definition sound1 (p : strans unit) (e : expr) : Prop := forall d,
  p e tt = Ok (d, tt) -> sound s d (eval s' e) /\ (is_bool e = true -> is_bool d = true).
(** The logarithms among the operands are fine after the transformation. *)
Definition log_fine (d : expr) : Prop := determine_set d = real_positive -> forall x, eval s d = Rv x -> 1 < x.

Lemma tmap_sound p l ds u : Forall (sound1 p) l -> tmap p l tt = Ok (ds, u) ->
  Forall2 (fun a d => p a tt = Ok (d, tt)) l ds /\ Forall (wf s) ds /\ Forall2 refines (map (eval s) ds) (map (eval s') l).
Proof.
  intros H. revert ds u. induction H as [|a l Ha _ IH]; intros ds u E; cbn [tmap] in E.
  - injection E as <- <-. repeat constructor.
  - binv E. binv E. injection E as <- <-. destruct x as [d []], x0 as [ds u0]. cbn [fst snd] in *.
    destruct (IH _ _ E1) as (A & B & C). destruct (Ha _ E0) as [[W R] _]. repeat split; cbn; constructor; auto.
Qed.

Lemma map_sound p e d : shaped e -> Forall (sound1 p) (children e) ->
  (forall a, EVar a = e -> ev s' a = ev s a) ->
  (forall l, e = EFun Flog l -> Forall (fun a => forall d, p a tt = Ok (d, tt) -> log_fine d) l) ->
  map_children I n p e tt = Ok (d, tt) ->
  sound s d (eval s' e) /\ (is_bool e = true -> is_bool d = true).
Proof.
  intros Hs Hc Hv Hl H. destruct e; cbn [map_children children] in *.
  all: try (injection H as <-; split; [|auto]; split; [exact Hs || exact Logic.I|apply refines_refl]; fail).
  - (* variable *) injection H as <-. split; [|auto]. split; [exact Logic.I|]. cbn [eval]. rewrite (Hv v eq_refl). apply refines_refl.
  - binv H. binv H. injection H as <-. destruct x as [ds []]. destruct (tmap_sound _ _ _ _ Hc E) as (_ & W & R). split; [|discriminate].
    eapply sound_weaken; [|cbn [eval]; apply vprod_mono, R]. apply (mul_sound I HI s Henv n); auto.
  - binv H. binv H. injection H as <-. destruct x as [ds []]. destruct (tmap_sound _ _ _ _ Hc E) as (_ & W & R). split; [|discriminate].
    eapply sound_weaken; [|cbn [eval]; apply vsum_mono, R]. apply (add_sound I HI s Henv n); auto.
  - pose proof (Forall_inv Hc) as H1. pose proof (Forall_inv (Forall_inv_tail Hc)) as H2. binv H. binv H. binv H. injection H as <-.
    destruct x as [a []], x0 as [b []]. destruct (H1 _ E) as [[W1 R1] _], (H2 _ E0) as [[W2 R2] _]. split; [|discriminate].
    eapply sound_weaken; [|cbn [eval]; apply vpow_mono; [exact R1|exact R2]]. apply (e_pow_sound I HI s Henv n); auto.
  - binv H. binv H. injection H as <-. destruct x as [ds []]. destruct (tmap_sound _ _ _ _ Hc E) as (P & W & R). split; [|discriminate].
    eapply sound_weaken; [|cbn [eval]; apply vfun_mono, R]. apply (create_sound I HI s Henv n); auto.
    intros ->. specialize (Hl _ eq_refl). clear - P Hl. induction P; constructor.
    + apply Forall_inv in Hl. apply Hl. auto.
    + apply IHP. now apply Forall_inv_tail in Hl.
  - binv H. injection H as <-. destruct x as [ds []]. destruct (tmap_sound _ _ _ _ Hc E) as (P & W & R). split; [|discriminate].
    split; [cbn; now apply (wf_list s)|]. cbn [eval]. destruct (reals (map (eval s') l)) as [xs|] eqn:Ex; [|apply refines_top].
    cbn [fst]. rewrite (reals_mono _ _ _ R Ex), Hfun. apply refines_refl.
  - pose proof (Forall_inv Hc) as H1. binv H. binv H. injection H as <-. destruct x as [a []]. destruct (H1 _ E) as [[W1 R1] _]. split; [|discriminate].
    eapply sound_weaken; [|exact R1]. apply uneval_sound; auto.
  - pose proof (Forall_inv Hc) as H1. pose proof (Forall_inv (Forall_inv_tail Hc)) as H2. pose proof (Forall_inv (Forall_inv_tail (Forall_inv_tail Hc))) as H3.
    binv H. destruct x as [c []]. cbn [fst snd] in *. destruct (H1 _ E) as [[W1 R1] _]. split; [|discriminate].
    assert (G : (let* x := p e2 tt in let* y := p e3 (snd x) in let* v := cond_fn c (fst x) (fst y) in Ok (v, snd y)) = Ok (d, tt) ->
      sound s d (eval s' (ECond e1 e2 e3))).
    { clear H. intros H. binv H. binv H. binv H. injection H as <-. destruct x as [a []], x0 as [b []]. cbn [fst snd] in *.
      destruct (H2 _ E0) as [[W2 R2] _], (H3 _ E1) as [[W3 R3] _].
      eapply sound_weaken; [|cbn [eval]; apply vcond_mono; [exact R1|exact R2|exact R3]]. apply cond_sound; auto. }
    destruct c; try (apply G, H). clear G. cbn [eval] in R1 |- *.
    assert (V : eval s' e1 = Top \/ eval s' e1 = Fin \/ eval s' e1 = Rv (if b then 1 else 0)).
    { destruct (eval s' e1) as [y| |]; auto. }
    destruct V as [V|[V|V]]; rewrite V; try (destruct b; [destruct (H2 _ H) as [[W2 R2] _]|destruct (H3 _ H) as [[W2 R2] _]]; split; auto; apply refines_top).
    unfold vcond. destruct b.
    + destruct (Req_EM_T 1 1); [|lra]. apply H2. exact H.
    + destruct (Req_EM_T 0 1); [lra|]. destruct (Req_EM_T 0 0); [|lra]. apply H3. exact H.
  - pose proof (Forall_inv Hc) as H1. binv H. binv H. injection H as <-. destruct x as [a []]. destruct (H1 _ E) as [[W1 R1] B1]. split; [|discriminate].
    cbn [shaped] in Hs. destruct Hs as [Hb _]. eapply sound_weaken; [|exact R1]. apply iverson_sound; auto.
  - pose proof (Forall_inv Hc) as H1. pose proof (Forall_inv (Forall_inv_tail Hc)) as H2. binv H. binv H. binv H. injection H as <-.
    destruct x as [a []], x0 as [b []]. destruct (H1 _ E) as [[W1 R1] _], (H2 _ E0) as [[W2 R2] _]. split; [|discriminate].
    split; [|apply refines_top]. eapply deriv_sound; [| |exact E1]; auto.
  - pose proof (Forall_inv Hc) as H1. pose proof (Forall_inv (Forall_inv_tail Hc)) as H2. pose proof (Forall_inv (Forall_inv_tail (Forall_inv_tail Hc))) as H3.
    binv H. binv H. binv H. binv H. injection H as <-. destruct x as [a []], x0 as [b []], x1 as [c []].
    destruct (H1 _ E) as [[W1 R1] _], (H2 _ E0) as [[W2 R2] _], (H3 _ E1) as [[W3 R3] _]. split; [|discriminate].
    split; [|apply refines_top]. eapply subst_wf; [| | |exact E2]; auto.
  - pose proof (Forall_inv Hc) as H1. binv H. binv H. injection H as <-. destruct x as [a []]. destruct (H1 _ E) as [[W1 R1] _]. split; [|discriminate].
    eapply sound_weaken; [|exact R1]. apply stop_sound; auto.
  - pose proof (Forall_inv Hc) as H1. pose proof (Forall_inv (Forall_inv_tail Hc)) as H2. binv H. binv H. binv H. injection H as <-.
    destruct x as [a []], x0 as [b []]. destruct (H1 _ E) as [[W1 R1] _], (H2 _ E0) as [[W2 R2] _].
    destruct (rel_sound s o _ _ _ W1 W2 E1) as [B S]. split; [|intros _; exact B].
    eapply sound_weaken; [exact S|]. cbn [eval]. apply vrel_mono; auto.
Qed.
End Value.

Lemma shaped_children e : shaped e -> Forall shaped (children e).
Proof.
  destruct e; cbn [shaped children]; intros H; auto; try (constructor; auto; fail);
  repeat match goal with H : _ /\ _ |- _ => destruct H end; auto using all_of_Forall.
  all: apply all_of_Forall; auto.
Qed.
Lemma logs_fine_children tr s e : logs_fine tr s e -> Forall (logs_fine tr s) (children e).
Proof.
  destruct e; cbn [logs_fine children]; intros H; auto; try (constructor; auto; fail);
  repeat match goal with H : _ /\ _ |- _ => destruct H end; auto using all_of_Forall.
  all: apply all_of_Forall; auto.
Qed.

Lemma plain_sound I n pre s s' : impl_ok I -> env_ok s -> ef s' = ef s ->
  (forall e r, pre e = Some r -> sound s r (eval s' e) /\ is_bool e = false) ->
  (forall v, pre (EVar v) = None -> ev s' v = ev s v) ->
  forall e, shaped e -> logs_fine (transform I n pre) s e -> sound1 s s' (plain I n pre) e.
Proof.
  intros HI Hs Hf Hp Hv. induction e as [e IH] using children_ind. intros Sh Lo d H.
  rewrite plain_eq in H. destruct (pre e) as [r|] eqn:Ep.
  - injection H as <-. destruct (Hp _ _ Ep) as [A B]. split; auto. congruence.
  - eapply (map_sound I HI n s s' Hs Hf); [exact Sh| | | |exact H].
    + apply shaped_children in Sh. apply logs_fine_children in Lo. rewrite Forall_forall in *. intros x Hx. apply IH; auto.
    + intros a Ea. apply Hv. now rewrite Ea.
    + intros l ->. destruct Lo as [_ Lo]. specialize (Lo eq_refl). apply all_of_Forall in Lo. eapply Forall_impl; [|exact Lo].
      intros a Ha d0 Hd Hset x Hx. apply (Ha d0); auto. unfold transform. now rewrite Hd.
Qed.
