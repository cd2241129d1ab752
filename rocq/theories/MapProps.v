(** Properties of memoised traversals and of substitution. *)
From Coq Require Import String List ZArith Reals Bool Lra Lia.
From Verif Require Import Outcome CheckedIntProofs RationalModel RationalSpec ExprModel ExprSpec ValProofs ExprProofs NumProofs BuildModel BuildProofs PowProofs BuildProps
  OrderProofs OrderSpec SumSpec SumProofs FuncModel FuncProofs DerivModel DerivSpec DerivFnProofs DerivProofs DerivProps MapModel MapSpec MapProofs MemoProofs.
Import ListNotations.
Open Scope R_scope.

(** ** C48 *)
(** Any visitor, any pattern of recursive visits: the cached run returns what the plain run returns, and fails
    as it fails. [P] is any set of expressions that contains what the visits of its elements
    ask about and on which equal keys are equal expressions. *)
Theorem C48_any_visitor : forall I visit (P : expr -> Prop) e,
  (forall e, P e -> asks visit P (visit e)) -> (forall a b, P a -> P b -> key_eq I a b = true -> a = b) -> P e ->
  (forall k d, run_plain visit k e = Ok d -> exists c, run_cached I visit k e [] = Ok (d, c)) /\
  (forall k d c, run_cached I visit k e [] = Ok (d, c) -> exists m, run_plain visit m e = Ok d) /\
  (forall k, run_plain visit k e = Throws -> run_cached I visit k e [] = Throws) /\
  (forall k, run_cached I visit k e [] = Throws -> exists m, run_plain visit m e = Throws).
Proof.
  intros I visit P e Hv Hk He. assert (V : valid visit P []) by constructor. repeat split.
  - intros k d H. pose proof (cached_of_plain I visit P Hv Hk k e [] He V ltac:(congruence)) as S. rewrite H in S.
    destruct (run_cached I visit k e []) as [[d' c]| | | |]; cbn in S; try discriminate. destruct S as [S _]. injection S as <-. eauto.
  - intros k d c H. destruct (plain_of_cached I visit P Hv Hk k e [] He V ltac:(congruence)) as [m S]. rewrite H in S.
    exists m. apply S.
  - intros k H. pose proof (cached_of_plain I visit P Hv Hk k e [] He V ltac:(congruence)) as S. rewrite H in S.
    destruct (run_cached I visit k e []) as [[d' c]| | | |]; cbn in S; try discriminate; auto. destruct S; discriminate.
  - intros k H. destruct (plain_of_cached I visit P Hv Hk k e [] He V ltac:(congruence)) as [m S]. rewrite H in S. eauto.
Qed.
Print Assumptions C48_any_visitor.
(** A visitor that asks for the same operand twice. *)
Example C48_any_visitor_ex :
  let visit e := match e with
                 | EPow a _ => Ask a (fun x => Ask a (fun y => Answer (e_add impl_ex 10 [x; y])))
                 | _ => Answer (Ok e)
                 end in
  run_plain visit 5 (EPow (EPow vx (EInt 2)) (EInt 2)) = Ok (EMul [EInt 4; vx]) /\
  (let* r := run_cached impl_ex visit 5 (EPow (EPow vx (EInt 2)) (EInt 2)) [] in Ok (fst r)) = Ok (EMul [EInt 4; vx]).
Proof. split; vm_compute; reflexivity. Qed.

(** The traversals that rebuild expressions (map_children), with whichever results are kept. *)
Theorem C48_rebuilding : forall I n pre keep keep_pre e, exact e ->
  (let* r := memo I n pre keep keep_pre e [] in Ok (fst r)) = transform I n pre e.
Proof.
  intros I n pre keep kp e He. pose proof (memo_agrees I n pre keep kp e He [] (Forall_nil _)) as A. unfold transform.
  destruct (memo I n pre keep kp e []) as [[d c]| | | |]; cbn in A |- *; [destruct A as [-> _]|rewrite A..]; reflexivity.
Qed.
Print Assumptions C48_rebuilding.
Example C48_rebuilding_ex :
  (let* r := memo impl_ex 10 (fun e => if ident e vx then Some vy else None) (fun _ => true) true
     (EAdd [EFun Fsin [vx]; EMul [vx; EFun Fsin [vx]]]) [] in Ok (fst r)) =
  Ok (EAdd [EMul [vy; EFun Fsin [vy]]; EFun Fsin [vy]]).
Proof. vm_compute; reflexivity. Qed.

(** ** C19 *)
Definition to_pairs (pairs : list (var * expr)) : list (expr * expr) := map (fun vr => (EVar (fst vr), snd vr)) pairs.

Lemma lookup_var I m x r : Forall (fun kd => exists v, fst kd = EVar v) m -> lookup I x m = Some r -> exists v, x = EVar v.
Proof.
  induction 1 as [|[k d] m [v Hv] _ IH]; [discriminate|]. cbn [fst] in Hv. subst k. cbn [lookup].
  destruct (key_eq I (EVar v) x) eqn:E; [|exact IH]. intros _. unfold key_eq in E. apply andb_true_iff in E. destruct E as [_ E].
  destruct x; try discriminate. eauto.
Qed.
Lemma key_var I v w : key_eq I (EVar v) (EVar w) = true <-> v = w.
Proof. rewrite (key_eq_iff I) by exact Logic.I. split; congruence. Qed.
Lemma lookup_vars I v : forall m, Forall (fun kd => exists v, fst kd = EVar v) m -> forall pairs m',
  add_substitutions I (to_pairs pairs) m = Ok m' ->
  Forall (fun kd => exists v, fst kd = EVar v) m' /\
  lookup I (EVar v) m' = match lookup I (EVar v) m with Some r => Some r | None => replacement v pairs end.
Proof.
  intros m Hm pairs. revert m Hm. induction pairs as [|[w r] pairs IH]; intros m Hm m' H; cbn in H.
  - injection H as <-. split; auto. destruct (lookup I (EVar v) m); reflexivity.
  - apply IH in H; [|unfold emplace; destruct (lookup I (EVar w) m); cbn; auto; constructor; cbn; eauto].
    destruct H as [A ->]. split; auto. unfold emplace. destruct (lookup I (EVar w) m) as [r0|] eqn:E; cbn [snd].
    + destruct (lookup I (EVar v) m) eqn:E2; auto. cbn [replacement]. destruct (var_eq_dec v w); congruence.
    + cbn [lookup replacement]. destruct (key_eq I (EVar w) (EVar v)) eqn:E2.
      * apply key_var in E2. subst w. rewrite E. destruct (var_eq_dec v v); congruence.
      * destruct (lookup I (EVar v) m); auto. destruct (var_eq_dec v w); [|auto]. subst. exfalso.
        rewrite (proj2 (key_var I w w) eq_refl) in E2. discriminate.
Qed.

Lemma logs_fine_ext tr tr' s e : (forall a, exact a -> tr a = tr' a) -> exact e -> logs_fine tr s e -> logs_fine tr' s e.
Proof.
  intros Ht. induction e as [e IH] using children_ind. intros He H.
  assert (A : forall l, children e = l -> all_of (logs_fine tr s) l -> all_of (logs_fine tr' s) l).
  { intros l <- Hl. apply all_of_Forall in Hl. apply all_of_Forall. apply exact_children in He. rewrite Forall_forall in *. auto. }
  assert (B : forall x, In x (children e) -> logs_fine tr s x -> logs_fine tr' s x).
  { intros x Hx Hl. apply exact_children in He. rewrite Forall_forall in *. auto. }
  destruct e; cbn [logs_fine children] in *; auto; repeat match goal with H : _ /\ _ |- _ => destruct H end; repeat split; auto 6 with datatypes.
  intros ->. specialize (H0 eq_refl). apply all_of_Forall in H0. apply all_of_Forall. apply exact_children in He. cbn in He.
  rewrite Forall_forall in *. intros x Hx d Hd. apply (H0 x Hx). rewrite Ht; auto.
Qed.

(** Several variables are replaced at once. *)
Theorem C19_simultaneous : forall I n pairs m e d s s',
  impl_ok I -> env_ok s -> exact e -> shaped e ->
  add_substitutions I (to_pairs pairs) [] = Ok m -> subst_variables I n m e = Ok d ->
  simultaneous s pairs s' -> Forall (fun vr => wf s (snd vr)) pairs ->
  logs_fine (subst_variables I n m) s e ->
  wf s d /\ forall x, eval s' e = Rv x -> eval s d = Rv x.
Proof.
  intros I n pairs m e d s s' HI Hs He Sh Hm Hd [Hf Hv] Hw Hl.
  set (pre := fun x => if is_boolean x then None else lookup I x m).
  assert (T : forall a, exact a -> subst_variables I n m a = transform I n pre a).
  { intros a Ha. unfold subst_variables. apply C48_rebuilding. exact Ha. }
  assert (Hm0 : Forall (fun kd : expr * expr => exists v, fst kd = EVar v) []) by constructor.
  assert (K : forall v, lookup I (EVar v) m = replacement v pairs).
  { intros v. destruct (lookup_vars I v [] Hm0 pairs m Hm) as [_ ->]. reflexivity. }
  destruct (lookup_vars I (VUnique 0 real_set) [] Hm0 pairs m Hm) as [Km _].
  rewrite (T e He) in Hd. unfold transform in Hd. binv Hd. injection Hd as <-. destruct x as [d []].
  assert (S : sound1 s s' (plain I n pre) e).
  { apply plain_sound; auto.
    - intros a r Hp. unfold pre in Hp. destruct (is_boolean a) eqn:B; [discriminate|]. destruct (lookup_var I m a r Km Hp) as [v ->].
      split; [|reflexivity]. rewrite K in Hp. specialize (Hv v). rewrite Hp in Hv. split; [|cbn [eval]; rewrite Hv; apply refines_refl].
      clear - Hp Hw. induction Hw as [|[w r'] l Hwr _ IH]; [discriminate|]. cbn [replacement snd] in *. destruct (var_eq_dec v w); [|auto]. injection Hp as <-. exact Hwr.
    - intros v Hp. unfold pre in Hp. cbn [is_boolean] in Hp. rewrite K in Hp. specialize (Hv v). rewrite Hp in Hv. exact Hv.
    - eapply logs_fine_ext; [|exact He|exact Hl]. exact T. }
  destruct (S d E) as [[W R] _]. split; [exact W|]. intros x Hx. rewrite Hx in R. apply refines_Rv in R. exact R.
Qed.
Print Assumptions C19_simultaneous.
(** x and y are exchanged, which one replacement after the other cannot do. *)
Example C19_simultaneous_ex :
  (let* m := add_substitutions impl_ex (to_pairs [(VNamed "x" real_set, vy); (VNamed "y" real_set, EAdd [EInt 1; vx])]) [] in
   subst_variables impl_ex 10 m (EAdd [vx; EMul [EInt 2; vy]])) = Ok (EAdd [EInt 2; vy; EMul [EInt 2; vx]]).
Proof. vm_compute; reflexivity. Qed.

(** One variable is replaced. *)
Lemma single_transform I n v r e : exact e ->
  subst_single I n e (EVar v) r = transform I n (fun x => if (type_rank x =? type_rank (EVar v))%Z && ident (EVar v) x then Some r else None) e.
Proof.
  intros He. set (pre := fun x => if (type_rank x =? type_rank (EVar v))%Z && ident (EVar v) x then Some r else None).
  unfold subst_single, transform. fold pre. change (if (type_rank e =? type_rank (EVar v))%Z && ident (EVar v) e then Some r else None) with (pre e). rewrite plain_eq. destruct (pre e); [reflexivity|].
  assert (M : agree (consistent I n pre) (map_children I n (memo I n pre (fun _ => true) true) e []) (map_children I n (plain I n pre) e tt)).
  { apply map_agree; [|constructor]. apply exact_children in He. eapply Forall_impl; [|exact He]. intros a Ha c Hc. apply memo_agrees; auto. }
  destruct (map_children I n (memo I n pre (fun _ => true) true) e []) as [[d c]| | | |]; cbn in M |- *; [destruct M as [-> _]|rewrite M..]; reflexivity.
Qed.

Theorem C19_single : forall I n v r e d s x,
  impl_ok I -> env_ok s -> exact e -> shaped e -> wf s r -> eval s r = Rv x ->
  subst_single I n e (EVar v) r = Ok d -> logs_fine (fun a => subst_single I n a (EVar v) r) s e ->
  wf s d /\ forall y, eval (upd s v x) e = Rv y -> eval s d = Rv y.
Proof.
  intros I n v r e d s x HI Hs He Sh Wr Vr Hd Hl. rewrite single_transform in Hd by exact He.
  set (pre := fun x => if (type_rank x =? type_rank (EVar v))%Z && ident (EVar v) x then Some r else None) in *.
  unfold transform in Hd. binv Hd. injection Hd as <-. destruct x0 as [d []].
  assert (S : sound1 s (upd s v x) (plain I n pre) e).
  { apply plain_sound; auto.
    - intros a r' Hp. unfold pre in Hp. destruct ((type_rank a =? type_rank (EVar v))%Z && ident (EVar v) a) eqn:B; [|discriminate].
      injection Hp as <-. apply andb_true_iff in B. destruct B as [_ B].
      destruct a; try discriminate. apply ident_var in B. subst v0. split; [|reflexivity]. split; [exact Wr|]. cbn [eval]. rewrite Vr.
      rewrite ev_upd_same. apply refines_refl.
    - intros w Hp. unfold pre in Hp. apply ev_upd_other. intros ->. rewrite Z.eqb_refl, (proj2 (ident_var w w) eq_refl) in Hp. discriminate.
    - eapply logs_fine_ext; [|exact He|exact Hl]. intros a Ha. apply single_transform. exact Ha. }
  destruct (S d E) as [[W R] _]. split; [exact W|]. intros y Hy. rewrite Hy in R. apply refines_Rv in R. exact R.
Qed.
Print Assumptions C19_single.
Example C19_single_ex :
  subst_single impl_ex 10 (EAdd [EPow vx (EInt 2); EMul [vx; vy]]) vx (EMul [EInt 2; vy]) = Ok (EMul [EInt 6; EPow vy (EInt 2)]).
Proof. vm_compute; reflexivity. Qed.

(** A list of pairs is documented to be executed in order (wrapper docs, subs). *)
Fixpoint steps_fine (I : impl) (n : nat) (s : env) (pairs : list (var * expr)) (e : expr) : Prop :=
  match pairs with
  | [] => True
  | (v, r) :: t =>
      exists s1, in_order s t s1 /\ env_ok s1 /\ wf s1 r /\ exact e /\ shaped e /\
      logs_fine (fun a => subst_single I n a (EVar v) r) s1 e /\
      forall e', subst_single I n e (EVar v) r = Ok e' -> steps_fine I n s t e'
  end.

Lemma in_order_det s t : forall s1 s2, in_order s t s1 -> in_order s t s2 -> s1 = s2.
Proof.
  induction t as [|[v r] t IH]; cbn [in_order]; intros s1 s2; [congruence|].
  intros (a & Ha & x & Hx & ->) (b & Hb & y & Hy & ->). rewrite (IH _ _ Ha Hb) in *. congruence.
Qed.

Theorem C19_in_order : forall I n pairs e d s s',
  impl_ok I -> subst_ordered I n e (to_pairs pairs) = Ok d -> in_order s pairs s' -> steps_fine I n s pairs e ->
  forall x, eval s' e = Rv x -> eval s d = Rv x.
Proof.
  intros I n pairs. induction pairs as [|[v r] pairs IH]; intros e d s s' HI H Ho Hf x Hx.
  - cbn in *. injection H as <-. subst. exact Hx.
  - cbn [to_pairs map subst_ordered fst snd] in H. binv H. destruct Ho as (s1 & Ho & y & Hy & ->).
    destruct Hf as (s2 & Ho2 & He & Wr & Ex & Sh & Lo & Hf). rewrite (in_order_det _ _ _ _ Ho2 Ho) in *.
    destruct (C19_single I n v r e x0 s1 y HI He Ex Sh Wr Hy E Lo) as [_ V].
    eapply IH; [exact HI|exact H|exact Ho|exact (Hf _ E)|]. apply V. exact Hx.
Qed.
Print Assumptions C19_in_order.
Example C19_in_order_ex :
  subst_ordered impl_ex 10 (EAdd [vx; EPow vy (EInt 2)])
    (to_pairs [(VNamed "x" real_set, EMul [EInt 2; vy]); (VNamed "y" real_set, EInt 3)]) = Ok (EInt 15).
Proof. vm_compute; reflexivity. Qed.

(** No replacement is the target of a later pair. *)
Fixpoint independent (pairs : list (var * expr)) : Prop :=
  match pairs with
  | [] => True
  | (v, r) :: t => (forall w r', In (w, r') t -> r <> EVar w) /\ independent t
  end.

Lemma unordered_ok_lists I force : forall pairs m m', unordered I (to_pairs pairs) force m = Ok (Some m') ->
  add_substitutions I (to_pairs pairs) m = Ok m' /\ (force = false -> Forall (fun vr => is_leaf (snd vr) = true) pairs).
Proof.
  induction pairs as [|[v r] pairs IH]; intros m m' H; cbn [to_pairs map unordered fst snd] in H.
  - injection H as <-. auto.
  - destruct (unordered_ok I m (EVar v) r force) eqn:U; [|discriminate]. cbn in H. apply IH in H. destruct H as [A B]. split; [exact A|].
    intros F. constructor; auto. cbn [snd]. subst force. unfold unordered_ok in U. destruct v; try discriminate.
    destruct (lookup I _ m); [discriminate|]. destruct (is_leaf r); [reflexivity|discriminate].
Qed.
Lemma in_order_other s t s1 : in_order s t s1 -> ef s1 = ef s /\ forall w, (forall r, ~ In (w, r) t) -> ev s1 w = ev s w.
Proof.
  revert s1. induction t as [|[v r] t IH]; cbn [in_order]; intros s1.
  - intros ->. auto.
  - intros (a & Ha & x & _ & ->). destruct (IH _ Ha) as [E V]. split; [exact E|]. intros w Hw. rewrite ev_upd_other.
    + apply V. intros r0 Hr. apply (Hw r0). now right.
    + intros ->. apply (Hw r). now left.
Qed.
Lemma in_order_simultaneous s pairs s' : Forall (fun vr => is_leaf (snd vr) = true) pairs -> independent pairs ->
  in_order s pairs s' -> simultaneous s pairs s'.
Proof.
  revert s'. induction pairs as [|[v r] t IH]; cbn [in_order independent]; intros s' L N H.
  - subst. split; [reflexivity|]. intros v. reflexivity.
  - destruct H as (s1 & H & x & Hx & ->). destruct N as [N1 N2]. pose proof (Forall_inv L) as L1. apply Forall_inv_tail in L. cbn [snd] in L1.
    destruct (IH s1 L N2 H) as [E V]. split; [exact E|]. intros w. cbn [replacement]. destruct (var_eq_dec w v) as [->|D].
    + rewrite ev_upd_same, <- Hx. destruct (in_order_other _ _ _ H) as [_ O]. destruct r; try discriminate; cbn [eval] in *; auto.
      f_equal. symmetry. apply O. intros r0 Hr. now apply (N1 v0 r0 Hr).
    + rewrite ev_upd_other by congruence. apply V.
Qed.

(** The whole function. *)
Theorem C19_substitute : forall I n pairs e d s s',
  impl_ok I -> substitute I n e (to_pairs pairs) false = Ok d ->
  in_order s pairs s' -> independent pairs ->
  env_ok s -> exact e -> shaped e -> Forall (fun vr => wf s (snd vr)) pairs ->
  (forall m, add_substitutions I (to_pairs pairs) [] = Ok m -> logs_fine (subst_variables I n m) s e) ->
  steps_fine I n s pairs e ->
  forall x, eval s' e = Rv x -> eval s d = Rv x.
Proof.
  intros I n pairs e d s s' HI H Ho Hi Hs He Sh Hw Hl Hf. unfold substitute in H. binv H. destruct x as [m|].
  - destruct (1 <? length (to_pairs pairs))%nat; [|discriminate]. apply unordered_ok_lists in E. destruct E as [A L].
    eapply (C19_simultaneous I n pairs m e d s s' HI Hs He Sh A H); auto. apply in_order_simultaneous; auto.
  - eapply C19_in_order; eauto.
Qed.
Print Assumptions C19_substitute.
Example C19_substitute_ex :
  substitute impl_ex 10 (EAdd [vx; vy]) (to_pairs [(VNamed "y" real_set, EInt 1); (VNamed "x" real_set, vy)]) false = Ok (EAdd [EInt 1; vy]) /\
  substitute impl_ex 10 (EAdd [vx; vy]) (to_pairs [(VNamed "x" real_set, EInt 1); (VNamed "y" real_set, vp)]) false = Ok (EAdd [EInt 1; vp]).
Proof. split; vm_compute; reflexivity. Qed.

(** Without independence the documented order is not kept: replacing x by y and then y by p in x gives y, not p. *)
Theorem C19_order_refuted : exists I n pairs e d s s' x,
  impl_ok I /\ env_ok s /\ substitute I n e (to_pairs pairs) false = Ok d /\ in_order s pairs s' /\
  eval s' e = Rv x /\ eval s d <> Rv x.
Proof.
  set (X := VNamed "x" real_set). set (Y := VNamed "y" real_set). set (P := VNamed "p" real_positive).
  set (s0 := mk_env (fun v => if var_eq_dec v Y then 1 else 2) (fun _ _ => 0)).
  exists impl_ex, 10%nat, [(X, EVar Y); (Y, EVar P)], (EVar X), (EVar Y), s0, (upd (upd s0 Y 2) X 2), 2.
  split; [exact impl_ex_ok|]. split.
  { intros v. cbn. destruct (var_set v); cbn; destruct (var_eq_dec v Y); lra || exact Logic.I. }
  split; [vm_compute; reflexivity|]. split.
  { cbn [in_order]. exists (upd s0 Y 2). split.
    - exists s0. split; [reflexivity|]. exists 2. split; [|reflexivity]. cbn. reflexivity.
    - exists 2. split; [|reflexivity]. cbn. destruct (var_eq_dec Y Y); congruence. }
  split; [cbn; destruct (var_eq_dec X X); congruence|]. cbn. intros H. injection H. lra.
Qed.
Print Assumptions C19_order_refuted.
