(** Collecting keeps the value. *)
From Coq Require Import String List ZArith Reals Bool Permutation Lra Lia.
From Verif Require Import Outcome CheckedIntProofs RationalModel RationalSpec ExprModel ExprSpec ValProofs ExprProofs NumProofs BuildModel BuildProofs PowProofs
  OrderProofs OrderSpec SumSpec SumProofs FuncModel FuncProofs DerivModel DerivSpec DerivFnProofs DerivProofs MapModel MapSpec MapProofs LowerSortProofs TransSpec CollectModel.
Import ListNotations.
Open Scope R_scope.

Lemma vmul_vadd_refines a b c : refines (vmul a (vadd b c)) (vadd (vmul a b) (vmul a c)).
Proof.
  destruct a as [x| |], b as [y| |], c as [z| |]; cbn;
    repeat (match goal with |- context [Req_EM_T ?u ?v] => destruct (Req_EM_T u v) end; cbn); auto; try congruence;
    try (apply Rv_inj; subst; ring); try (subst; apply Rv_inj; lra); try (exfalso; lra).
Qed.
Lemma vmul_vsum_refines a l : refines (vmul a (vsum l)) (vsum (map (vmul a) l)) \/ l = [].
Proof.
  destruct l as [|b l]; [auto|left]. revert b. induction l as [|c l IH]; intros b.
  - cbn. rewrite !vadd_0_r. apply refines_refl.
  - cbn [map]. rewrite (vsum_cons b), (vsum_cons (vmul a b)). eapply refines_trans; [apply vmul_vadd_refines|].
    apply vadd_mono; [apply refines_refl|]. apply IH.
Qed.

Section Collect.
Context (I : impl) (HI : impl_ok I) (n : nat) (iter : groups -> groups) (Hit : forall g, Permutation (iter g) g).
Context (s : env) (Henv : env_ok s).

Lemma base_exp_value e : eval s e = vpow (eval s (fst (as_base_and_exp e))) (eval s (snd (as_base_and_exp e))).
Proof. destruct e; try reflexivity; cbn [as_base_and_exp fst snd]; symmetry; apply vpow_1_r. Qed.
Lemma base_exp_wf e : wf s e -> wf s (fst (as_base_and_exp e)) /\ wf s (snd (as_base_and_exp e)).
Proof.
  intros H. assert (O : wf s (EInt 1)) by (cbn; unfold in_i64, INT64_MIN, INT64_MAX; lia).
  destruct e; cbn [as_base_and_exp fst snd]; auto.
Qed.

Lemma find_factor_value t : forall l x r, find_factor t l = Some (x, r) -> Forall (wf s) l ->
  vprod (map (eval s) l) = vmul (vpow (eval s t) (eval s x)) (vprod (map (eval s) r)) /\ wf s x /\ Forall (wf s) r.
Proof.
  induction l as [|m l IH]; intros x r H W; cbn [find_factor] in H; [discriminate|].
  pose proof (Forall_inv W) as Wm. apply Forall_inv_tail in W.
  destruct (ident (fst (as_base_and_exp m)) t) eqn:E.
  - injection H as <- <-. cbn [map]. rewrite vprod_cons, (base_exp_value m), (ident_eval s _ _ E). split; [reflexivity|]. split; [|exact W]. now apply base_exp_wf.
  - destruct (find_factor t l) as [[y r']|] eqn:F; [|discriminate]. injection H as <- <-. destruct (IH _ _ eq_refl W) as (V & Wx & Wr).
    cbn [map]. rewrite !vprod_cons, V. split; [|split; auto]. rewrite !vmul_assoc. f_equal. apply vmul_comm.
Qed.

Lemma take_term_value t child x c : take_term I n t child = Ok (Some (x, c)) -> wf s child ->
  refines (vmul (vpow (eval s t) (eval s x)) (eval s c)) (eval s child) /\ wf s x /\ wf s c.
Proof.
  intros H W. assert (O : wf s (EInt 1)) by (cbn; unfold in_i64, INT64_MIN, INT64_MAX; lia).
  assert (G : (if ident (fst (as_base_and_exp child)) t then Ok (Some (snd (as_base_and_exp child), EInt 1)) else Ok None) = Ok (Some (x, c)) ->
    refines (vmul (vpow (eval s t) (eval s x)) (eval s c)) (eval s child) /\ wf s x /\ wf s c).
  { clear H. intros H. destruct (ident _ t) eqn:E; [|discriminate]. injection H as <- <-. split; [|split; [now apply base_exp_wf|exact O]].
    rewrite (base_exp_value child), (ident_eval s _ _ E). cbn [eval]. rewrite vmul_1_r. apply refines_refl. }
  unfold take_term in H. destruct child; try exact (G H). clear G. destruct (find_factor t l) as [[y r]|] eqn:F; [|discriminate].
  binv H. injection H as <- <-. assert (Wl : Forall (wf s) l) by exact (wf_children s (EMul l) W).
  destruct (find_factor_value _ _ _ _ F Wl) as (V & Wy & Wr). apply (mul_sound I HI s Henv n) in E; auto. destruct E as [Wc Vc].
  split; [|auto]. cbn [eval]. rewrite V. apply vmul_mono; [apply refines_refl|exact Vc].
Qed.

(** The value of the map. *)
Definition gval (t : expr) (g : groups) : val :=
  vsum (map (fun xc => vmul (vpow (eval s t) (eval s (fst xc))) (vsum (map (eval s) (snd xc)))) g).
Definition gwf (g : groups) : Prop := Forall (fun xc => wf s (fst xc) /\ Forall (wf s) (snd xc)) g.

Lemma push_value t x c g : wf s x -> wf s c -> gwf g ->
  refines (gval t (push_group I x c g)) (vadd (vmul (vpow (eval s t) (eval s x)) (eval s c)) (gval t g)) /\ gwf (push_group I x c g).
Proof.
  intros Wx Wc. induction g as [|[y l] g IH]; intros Wg; cbn [push_group].
  - unfold gval. cbn [map fst snd]. rewrite vsum_cons. cbn [vsum fold_right]. rewrite !vadd_0_r. split; [apply refines_refl|]. repeat constructor; auto.
  - destruct (Forall_inv Wg) as [Wy Wl]. apply Forall_inv_tail in Wg. cbn [fst snd] in *. destruct (key_eq I y x) eqn:E.
    + apply (key_eq_eval I s) in E. unfold gval. cbn [map fst snd]. rewrite !vsum_cons, E, map_app, vsum_app. cbn [map]. split.
      * rewrite vadd_assoc. apply vadd_mono; [|apply refines_refl]. eapply refines_trans; [apply vmul_vadd_refines|].
        cbn [vsum fold_right]. rewrite vadd_0_r, vadd_comm. apply refines_refl.
      * constructor; auto. split; [exact Wy|]. apply Forall_app. auto.
    + destruct (IH Wg) as [R Wp]. unfold gval in *. cbn [map fst snd]. rewrite !vsum_cons. split; [|constructor; auto].
      rewrite vadd_swap. apply vadd_mono; [apply refines_refl|exact R].
Qed.

Lemma split_value t : forall l g rest g', split_terms I n t l g = Ok (rest, g') -> Forall (wf s) l -> gwf g ->
  refines (vadd (vsum (map (eval s) rest)) (gval t g')) (vadd (vsum (map (eval s) l)) (gval t g)) /\ Forall (wf s) rest /\ gwf g'.
Proof.
  induction l as [|child l IH]; intros g rest g' H W Wg; cbn [split_terms] in H.
  - injection H as <- <-. split; [apply refines_refl|auto].
  - pose proof (Forall_inv W) as Wc. apply Forall_inv_tail in W. binv H. destruct x as [[x c]|].
    + destruct (take_term_value _ _ _ _ E Wc) as (V & Wx & Wk). destruct (push_value t x c g Wx Wk Wg) as [P Wp].
      destruct (IH _ _ _ H W Wp) as (R & Wr & Wg'). split; [|auto]. eapply refines_trans; [exact R|]. cbn [map]. rewrite vsum_cons.
      rewrite <- vadd_assoc, vadd_swap. apply vadd_mono; [apply refines_refl|]. eapply refines_trans; [exact P|]. apply vadd_mono; [exact V|apply refines_refl].
    + binv H. injection H as <- <-. destruct x as [rest0 g0]. cbn [fst snd] in *. destruct (IH _ _ _ E0 W Wg) as (R & Wr & Wg').
      split; [|auto]. cbn [map]. rewrite !vsum_cons, <- !vadd_assoc. apply vadd_mono; [apply refines_refl|exact R].
Qed.

Lemma collect_add_sound : forall terms, Forall (wf s) terms -> forall l d, Forall (wf s) l ->
  collect_add I n iter terms l = Ok d -> sound s d (vsum (map (eval s) l)).
Proof.
  induction terms as [|t ts IH]; intros Wt l d W H; cbn [collect_add] in H; [discriminate|].
  pose proof (Forall_inv Wt) as Wt1. apply Forall_inv_tail in Wt. specialize (IH Wt). binv H. destruct x as [rest g]. cbn [fst snd] in H.
  destruct (split_value t l [] rest g E W (Forall_nil _)) as (R & Wr & Wg). clear E.
  assert (Sub : forall c v, Forall (wf s) c -> (match ts with [] => e_add I n c | _ => collect_add I n iter ts c end) = Ok v -> sound s v (vsum (map (eval s) c))).
  { intros c v Wc Hv. destruct ts; [now apply (add_sound I HI s Henv n)|now apply IH]. }
  binv H. assert (Hx : Forall (wf s) x /\ refines (vsum (map (eval s) x)) (vsum (map (eval s) rest))).
  { assert (G : forall r, collect_add I n iter ts rest = Ok r -> Forall (wf s) [r] /\ refines (vsum (map (eval s) [r])) (vsum (map (eval s) rest))).
    { intros r Hr. apply IH in Hr; auto. destruct Hr as [Wr' V]. split; [auto|]. cbn [map]. rewrite vsum_cons. cbn [vsum fold_right]. rewrite vadd_0_r. exact V. }
    destruct ts as [|t2 ts]; [injection E as <-; split; [auto|apply refines_refl]|]. destruct rest as [|r rest]; [injection E as <-; split; [auto|apply refines_refl]|].
    binv E. injection E as <-. apply G, E0. }
  destruct Hx as [Wx Vx]. binv H.
  assert (Hy : Forall (wf s) x0 /\ refines (vsum (map (eval s) x0)) (gval t g)).
  { assert (P : gval t g = gval t (iter g)) by (unfold gval; apply vsum_perm, Permutation_map, Permutation_sym, Hit).
    assert (Wi : gwf (iter g)). { unfold gwf in *. rewrite Forall_forall in *. intros y Hy. apply Wg. eapply Permutation_in; [apply Hit|exact Hy]. }
    rewrite P. unfold gval. apply emap_inv in E0. clear - E0 Wi Sub Wt1 HI Henv. induction E0 as [|[y c] v gs vs Hv _ IHv]; [split; [constructor|apply refines_refl]|].
    destruct (Forall_inv Wi) as [Wy Wc]. apply Forall_inv_tail in Wi. destruct (IHv Wi) as [Wvs Vvs]. cbn [fst snd] in *. binv Hv. binv Hv.
    apply (e_pow_sound I HI s Henv n) in E; auto. destruct E as [Wp Vp]. apply Sub in E0; auto. destruct E0 as [Wk Vk].
    apply (e_mul2_sound I HI s Henv n) in Hv; auto. destruct Hv as [Wv Vv]. split; [auto|]. cbn [map fst snd]. rewrite !vsum_cons. apply vadd_mono; [|exact Vvs].
    eapply refines_trans; [exact Vv|]. now apply vmul_mono. }
  destruct Hy as [Wy Vy]. apply (add_sound I HI s Henv n) in H; [|apply Forall_app; auto]. eapply sound_weaken; [exact H|].
  rewrite map_app, vsum_app. eapply refines_trans; [apply vadd_mono; [exact Vx|exact Vy]|]. eapply refines_trans; [exact R|].
  unfold gval. cbn. rewrite vadd_0_r. apply refines_refl.
Qed.

Lemma collect_visit_eq terms e u : collect_visit I n iter terms e u =
  match e with
  | EAdd l => let* d := tmap (collect_visit I n iter terms) l u in let* v := collect_add I n iter terms (fst d) in Ok (v, snd d)
  | _ => map_children I n (collect_visit I n iter terms) e u
  end.
Proof. destruct e; reflexivity. Qed.

Lemma logs_large_children e : logs_large s e -> Forall (logs_large s) (children e).
Proof.
  destruct e; cbn [logs_large children]; intros H; auto; try (constructor; auto; fail);
  repeat match goal with H : _ /\ _ |- _ => destruct H end; auto using all_of_Forall.
  all: apply all_of_Forall; auto.
Qed.

Lemma collect_visit_sound terms : Forall (wf s) terms -> forall e, shaped e -> logs_large s e -> sound1 s s (collect_visit I n iter terms) e.
Proof.
  intros Wt. induction e as [e IH] using children_ind. intros Sh Lo d H.
  assert (Hc : Forall (sound1 s s (collect_visit I n iter terms)) (children e)).
  { apply shaped_children in Sh. apply logs_large_children in Lo. rewrite Forall_forall in *. intros x Hx. apply IH; auto. }
  rewrite collect_visit_eq in H.
  assert (G : map_children I n (collect_visit I n iter terms) e tt = Ok (d, tt) -> sound s d (eval s e) /\ (is_bool e = true -> is_bool d = true)).
  { clear H. intros H. eapply (map_sound I HI n s s Henv eq_refl); [exact Sh|exact Hc|auto| |exact H].
    intros l ->. cbn [children] in Hc. destruct Lo as [_ Lo]. specialize (Lo eq_refl). apply all_of_Forall in Lo. rewrite Forall_forall in *.
    intros a Ha d0 Hd0 _ x Hx. destruct (Lo a Ha) as (y & Hy & L). destruct (Hc a Ha d0 Hd0) as [[_ R] _]. rewrite Hy in R. apply refines_Rv in R. congruence. }
  destruct e; try exact (G H). clear G. binv H. binv H. injection H as <-. destruct x as [ds []]. cbn [fst snd children] in *.
  destruct (tmap_sound s s _ _ _ _ Hc E) as (_ & W & R). split; [|discriminate]. eapply sound_weaken; [apply (collect_add_sound terms Wt ds _ W E0)|].
  cbn [eval]. now apply vsum_mono.
Qed.

(** The terms that stay have no factor that is a power of the collected term, and the exponents are distinct. *)
Lemma base_exp_power t e : power_of t e = ident (fst (as_base_and_exp e)) t.
Proof. destruct e; reflexivity. Qed.
Lemma find_factor_none t l : find_factor t l = None -> existsb (power_of t) l = false.
Proof.
  induction l as [|m l IH]; cbn [find_factor existsb]; [auto|]. rewrite base_exp_power. destruct (ident _ t); [discriminate|]. cbn [orb].
  destruct (find_factor t l) as [[x r]|]; [discriminate|auto].
Qed.
Lemma take_none t e : take_term I n t e = Ok None -> has_power t e = false.
Proof.
  unfold take_term, has_power. destruct e; rewrite ?base_exp_power; try (destruct (ident _ t); [discriminate|auto]; fail).
  destruct (find_factor t l) as [[x r]|] eqn:F; [intros H; binv H; discriminate|]. intros _. now apply find_factor_none.
Qed.
Lemma split_rest t : forall l g rest g', split_terms I n t l g = Ok (rest, g') -> Forall (fun e => has_power t e = false) rest.
Proof.
  induction l as [|c l IH]; intros g rest g' H; cbn [split_terms] in H; [injection H as <- <-; constructor|].
  binv H. destruct x as [[x k]|]; [eapply IH; eauto|]. binv H. injection H as <- <-. constructor; [now apply take_none|]. destruct x. eapply IH; eauto.
Qed.
Definition apart (g : groups) : Prop := ForallOrdPairs (fun a b => key_eq I (fst a) (fst b) = false) g.
Lemma push_apart x c g : apart g -> apart (push_group I x c g) /\
  (forall y, key_eq I y x = false -> Forall (fun z => key_eq I y (fst z) = false) g -> Forall (fun z => key_eq I y (fst z) = false) (push_group I x c g)).
Proof.
  induction g as [|[y l] g IH]; cbn [push_group]; intros A.
  - split; [repeat constructor|]. intros y Hy _. repeat constructor. exact Hy.
  - inversion A as [|? ? A1 A2]; subst. destruct (IH A2) as [B1 B2]. destruct (key_eq I y x) eqn:E.
    + split; [constructor; auto|]. intros z Hz F. constructor; [exact (Forall_inv F)|exact (Forall_inv_tail F)].
    + split; [constructor; auto|]. intros z Hz F. constructor; [exact (Forall_inv F)|]. apply B2; auto. exact (Forall_inv_tail F).
Qed.
Lemma split_apart t : forall l g rest g', split_terms I n t l g = Ok (rest, g') -> apart g -> apart g'.
Proof.
  induction l as [|c l IH]; intros g rest g' H A; cbn [split_terms] in H; [injection H as <- <-; auto|].
  binv H. destruct x as [[x k]|]; [eapply IH; [exact H|]; now apply push_apart|]. binv H. injection H as <- <-. destruct x. eapply IH; eauto.
Qed.
End Collect.
