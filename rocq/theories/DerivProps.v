(** Properties of differentiation. *)
From Coq Require Import String List ZArith Reals Bool Lra Lia.
From Verif Require Import Outcome CheckedIntProofs RationalModel RationalSpec ExprModel ExprSpec ValProofs ExprProofs NumProofs BuildModel BuildProofs PowProofs BuildProps
  OrderProofs OrderSpec SumSpec SumProofs FuncModel FuncProofs DerivModel DerivSpec CalcProofs DerivZeroProofs DerivFnProofs DerivProofs.
Import ListNotations.
Open Scope R_scope.

(** [d] is a derivative expression of [e]: a well-formed expression whose value, wherever the parts of [e] are
    differentiable, is the derivative of the function that [e] denotes. *)
Definition is_derivative (constant : bool) (v : var) (e d : expr) : Prop :=
  forall s, env_ok s -> wf s e -> logs_ok s e ->
  wf s d /\ (smooth constant s v e -> exists y, has_derivative s v e y /\ eval s d = Rv y).

Lemma dv_derivative I n k v a c e r : impl_ok I -> exact e -> dv I n k (EVar v) a e (mk_dst [] c) = Ok r ->
  is_derivative (negb a) v e (fst r).
Proof.
  intros HI He H s Hs W L. destruct r as [d st]. assert (N : cache_ok s v a (d_cache (mk_dst [] c))) by constructor.
  destruct (dv_ok I HI s Hs n k v a e _ d st He N H) as [G _].
  destruct (G W L) as (G1 & _ & G3). auto.
Qed.

(** ** C18 *)
Theorem C18_derivative : forall I n k e v abstract c d c' s,
  impl_ok I -> env_ok s -> exact e -> diff I n k e (EVar v) 1 abstract c = Ok (d, c') ->
  wf s e -> logs_ok s e -> smooth (negb abstract) s v e ->
  exists y, has_derivative s v e y /\ eval s d = Rv y.
Proof.
  intros I n k e v a c d c' s HI Hs He H W L S. unfold diff in H. cbn [Z.ltb Z.compare diff_argument_ok negb] in H.
  change (Z.to_nat 1) with 1%nat in H. cbn [diff_reps] in H. binv H. binv E. injection E as <-. injection H as <- <-. cbn [fst snd] in *.
  apply (dv_derivative I n k v a c e x0 HI He E0 s Hs W L); exact S.
Qed.
Print Assumptions C18_derivative.
Example C18_derivative_ex :
  diff impl_ex 10 10 (EPow vx (EInt 2)) vx 1 false 0 = Ok (EMul [EInt 2; vx], 0%Z) /\
  diff impl_ex 10 10 (EFun Fsin [EMul [vx; vy]]) vx 1 false 0 =
    Ok (EMul [vy; EFun Fcos [EMul [vx; vy]]], 0%Z) /\
  diff impl_ex 12 12 (EPow vp vx) vx 1 false 0 = Ok (EMul [EPow vp vx; EFun Flog [vp]], 0%Z).
Proof. repeat split; vm_compute; reflexivity. Qed.

(** The side conditions hold for x^2 at every point, including zero. *)
Example C18_derivative_ex2 : forall s,
  env_ok s -> has_derivative s (VNamed "x" real_set) (EPow vx (EInt 2)) (2 * ev s (VNamed "x" real_set)).
Proof.
  intros s Hs.
  assert (HL : has_log vx).
  { exists (mk_env (fun _ => 2) (fun _ _ => 0)), 2. repeat split; try discriminate; try lra.
    intros v. cbn. destruct (var_set v); cbn; try lra; exact Logic.I. }
  destruct (C18_derivative impl_ex 10 10 (EPow vx (EInt 2)) (VNamed "x" real_set) false 0 (EMul [EInt 2; vx]) 0 s) as (y & Hy & Ey); auto.
  - apply impl_ex_ok.
  - split; [exact Logic.I|]. unfold exact. unfold_range. lia.
  - split; [exact Logic.I|]. unfold wf. unfold_range. lia.
  - cbn. split; [auto|]. split; [auto|]. left. discriminate.
  - cbn. split; [auto|]. split; [auto|]. intros x _. right. exists 2%Z. split; [reflexivity|]. right. split; [lia|exact HL].
  - cbn in Ey. replace (2 * ev s (VNamed "x" real_set)) with y; [exact Hy|]. injection Ey. intros <-. ring.
Qed.

(** An expression without the variable has the derivative zero, as an expression. *)
Theorem C18_constant_is_zero : forall I n k e v abstract c d c' s,
  impl_ok I -> env_ok s -> exact e -> diff I n k e (EVar v) 1 abstract c = Ok (d, c') ->
  wf s e -> logs_ok s e -> free_of v e = true -> d = EInt 0.
Proof.
  intros I n k e v a c d c' s HI Hs He H W L F. unfold diff in H. cbn [Z.ltb Z.compare diff_argument_ok negb] in H.
  change (Z.to_nat 1) with 1%nat in H. cbn [diff_reps] in H. binv H. binv E. injection E as <-. injection H as <- <-. cbn [fst snd] in *.
  assert (N : cache_ok s v a (d_cache (mk_dst [] c))) by constructor. destruct x0 as [d st].
  destruct (dv_ok I HI s Hs n k v a e _ d st He N E0) as [G _]. now apply G.
Qed.
Print Assumptions C18_constant_is_zero.
Example C18_constant_is_zero_ex :
  diff impl_ex 10 10 (EMul [vy; EFun Fexp [EPow vy (EInt 3)]]) vx 1 true 0 = Ok (EInt 0, 0%Z).
Proof. vm_compute; reflexivity. Qed.

(** The result is a well-formed expression at every assignment. *)
Theorem C18_well_formed : forall I n k e v abstract c d c' s,
  impl_ok I -> env_ok s -> exact e -> diff I n k e (EVar v) 1 abstract c = Ok (d, c') ->
  wf s e -> logs_ok s e -> wf s d.
Proof.
  intros I n k e v a c d c' s HI Hs He H W L. unfold diff in H. cbn [Z.ltb Z.compare diff_argument_ok negb] in H.
  change (Z.to_nat 1) with 1%nat in H. cbn [diff_reps] in H. binv H. binv E. injection E as <-. injection H as <- <-. cbn [fst snd] in *.
  apply (dv_derivative I n k v a c e x0 HI He E0 s Hs W L).
Qed.
Print Assumptions C18_well_formed.
Example C18_well_formed_ex :
  diff impl_ex 12 12 (EFun Fatan2 [vy; vx]) vx 1 false 0 =
    Ok (EMul [EInt (-1); vy; EPow (EAdd [EPow vx (EInt 2); EPow vy (EInt 2)]) (EInt (-1))], 0%Z).
Proof. vm_compute; reflexivity. Qed.

(** Only variables and calls of symbolic functions (and their derivatives) can be differentiated by. *)
Theorem C18_argument : forall I n k e x reps abstract c r,
  diff I n k e x reps abstract c = Ok r ->
  (0 <= reps)%Z /\
  ((exists v, x = EVar v) \/ (exists f l, x = ESymFn f l) \/ (exists f l y m, x = EDeriv (ESymFn f l) y m)).
Proof.
  intros I n k e x reps a c r H. unfold diff in H. destruct (Z.ltb_spec reps 0); [discriminate|]. split; [lia|].
  destruct x; try discriminate; eauto 6. cbn in H. destruct x1; try discriminate. eauto 9.
Qed.
Print Assumptions C18_argument.
Example C18_argument_ex :
  diff impl_ex 10 10 vx (EAdd [vx; vy]) 1 false 0 = Throws /\ diff impl_ex 10 10 vx (EInt 2) 1 false 0 = Throws /\
  diff impl_ex 10 10 vx vx (-1) false 0 = Throws /\ diff impl_ex 10 10 vx vx 0 false 0 = Ok (vx, 0%Z).
Proof. repeat split; vm_compute; reflexivity. Qed.

(** ** C45 *)
(** Consecutive elements of a list are related. *)
Fixpoint chained {A} (P : A -> A -> Prop) (a : A) (l : list A) : Prop :=
  match l with [] => True | b :: t => P a b /\ chained P b t end.

Lemma last_cons {A} (a b : A) l : last (a :: l) b = last l a.
Proof. revert a b. induction l as [|x l IH]; intros a b; [reflexivity|]. change (last (x :: l) b = last (x :: l) a). now rewrite !IH. Qed.

Fixpoint reps_trace I n k x a m e st : outcome (list expr) :=
  match m with
  | O => Ok []
  | S m => let* r := dv I n k x a e st in let* t := reps_trace I n k x a m (fst r) (snd r) in Ok (fst r :: t)
  end.
Lemma trace_of I n k x a m : forall e st r, diff_reps I n k x a m e st = Ok r ->
  exists es, reps_trace I n k x a m e st = Ok es /\ length es = m /\ last es e = fst r.
Proof.
  induction m as [|m IH]; intros e st r H; cbn [diff_reps] in H.
  - injection H as <-. exists []. auto.
  - binv H. destruct (IH _ _ _ H) as (es & T & L & La). exists (fst x0 :: es). cbn [reps_trace]. rewrite E. cbn [bind]. rewrite T. cbn [bind].
    split; [reflexivity|]. split; [cbn; congruence|]. now rewrite last_cons.
Qed.
Lemma trace_ok I n k v a m s : impl_ok I -> env_ok s -> forall e st es,
  cache_ok s v a (d_cache st) -> exact e -> Forall exact (removelast es) -> reps_trace I n k (EVar v) a m e st = Ok es ->
  chained (good s v a) e es.
Proof.
  intros HI Hs. induction m as [|m IH]; intros e st es C He Ex H; cbn [reps_trace] in H.
  - injection H as <-. exact Logic.I.
  - binv H. binv H. injection H as <-. destruct x as [d st']. cbn [fst snd] in *.
    destruct (dv_ok I HI s Hs n k v a e st d st' He C E) as [G C']. cbn [chained]. split; [exact G|].
    destruct x0 as [|d2 t]; [exact Logic.I|]. cbn [removelast] in Ex. apply (IH d st'); auto.
    + now apply Forall_inv in Ex.
    + now apply Forall_inv_tail in Ex.
Qed.

Theorem C45_repeated : forall I n k e v reps abstract c d c',
  impl_ok I -> diff I n k e (EVar v) reps abstract c = Ok (d, c') ->
  exists es, Z.of_nat (length es) = reps /\ last es e = d /\
  (exact e -> Forall exact (removelast es) -> chained (is_derivative (negb abstract) v) e es).
Proof.
  intros I n k e v reps a c d c' HI H. unfold diff in H. destruct (Z.ltb_spec reps 0); [discriminate|].
  cbn [diff_argument_ok negb] in H. binv H. injection H as <- <-. destruct (trace_of _ _ _ _ _ _ _ _ _ E) as (es & T & L & La).
  exists es. split; [rewrite L; lia|]. split; [exact La|]. intros He Ex.
  assert (G : forall s, env_ok s -> chained (good s v a) e es).
  { intros s Hs. eapply trace_ok; eauto. constructor. }
  clear - G. revert e G. induction es as [|d es IH]; intros e G; [exact Logic.I|]. split.
  - intros s Hs W L. destruct (G s Hs) as [g _]. destruct (g W L) as (g1 & _ & g3). auto.
  - apply IH. intros s Hs. now destruct (G s Hs).
Qed.
Print Assumptions C45_repeated.
Example C45_repeated_ex :
  diff impl_ex 12 12 (EPow vx (EInt 3)) vx 2 false 0 = Ok (EMul [EInt 6; vx], 0%Z) /\
  diff impl_ex 12 12 (EFun Fsin [vx]) vx 3 false 0 = Ok (EMul [EInt (-1); EFun Fcos [vx]], 0%Z) /\
  diff impl_ex 12 12 (EFun Fsin [vx]) vx 0 false 0 = Ok (EFun Fsin [vx], 0%Z).
Proof. repeat split; vm_compute; reflexivity. Qed.

(** Orders of unevaluated derivatives by the same variable are added up. *)
Theorem C45_orders_merge : forall g v m j, (0 < j)%Z ->
  deriv_fn (EDeriv g (EVar v) m) (EVar v) j = Ok (EDeriv g (EVar v) (m + j)).
Proof.
  intros g v m j Hj. unfold deriv_fn. destruct (Z.leb_spec j 0); [lia|]. cbn [is_diff_arg negb].
  now rewrite (proj2 (ident_var v v) eq_refl).
Qed.
Print Assumptions C45_orders_merge.
Example C45_orders_merge_ex :
  deriv_fn (EDeriv (ESymFn "f" [vx; vy]) vx 2) vx 3 = Ok (EDeriv (ESymFn "f" [vx; vy]) vx 5) /\
  deriv_fn (EDeriv (ESymFn "f" [vx; vy]) vx 2) vy 3 = Ok (EDeriv (EDeriv (ESymFn "f" [vx; vy]) vx 2) vy 3).
Proof. split; vm_compute; reflexivity. Qed.

(** The n-th derivative of a function that is only known by name is a single node of order n. *)
Lemma own_function v f : is_function_of (EVar v) (ESymFn f [EVar v]) = true.
Proof. pose proof (proj2 (ident_var v v) eq_refl) as Y. destruct v; cbn in *; now rewrite Y. Qed.
Section Unknown.
Context (I : impl) (n : nat) (v : var) (f : string) (a : bool).
Let F := ESymFn f [EVar v].
Let D m := EDeriv F (EVar v) m.
Definition unknown_entry (kd : expr * expr) : Prop :=
  kd = (EVar v, EInt 1) \/ kd = (F, D 1) \/ exists m, (0 < m)%Z /\ kd = (D m, D (m + 1)).
Lemma unknown_lookup c e d : Forall unknown_entry c -> exact e -> lookup I e c = Some d -> unknown_entry (e, d).
Proof.
  intros Hc He H. induction Hc as [|[k d'] c Hk _ IH]; [discriminate|]. cbn [lookup] in H.
  destruct (key_eq I k e) eqn:E; [|auto]. apply (key_eq_iff I) in E; auto.
  - subst k. injection H as <-. exact Hk.
  - destruct Hk as [K|[K|(m & _ & K)]]; injection K as -> _; cbn; auto.
Qed.
Lemma unknown_var k st : Forall unknown_entry (d_cache st) ->
  exists st', dv I n (S k) (EVar v) a (EVar v) st = Ok (EInt 1, st') /\ Forall unknown_entry (d_cache st') /\ d_next st' = d_next st.
Proof.
  intros C. cbn [dv]. destruct (lookup I (EVar v) (d_cache st)) as [d|] eqn:E.
  - apply unknown_lookup in E; auto; [|exact Logic.I]. destruct E as [K|[K|(m & _ & K)]]; try discriminate. injection K as ->. eauto.
  - cbn [diff_visit bind fst snd]. rewrite (proj2 (ident_var v v) eq_refl). eexists. split; [reflexivity|]. split; [|reflexivity].
    constructor; auto. left. reflexivity.
Qed.
Lemma dv_S k x e s : dv I n (S k) x a e s =
  match lookup I e (d_cache s) with
  | Some d => Ok (d, s)
  | None => let* r := diff_visit I n (dv I n k x a) (fun y => dv I n k y false) x a e s in
      Ok (fst r, mk_dst ((e, fst r) :: d_cache (snd r)) (d_next (snd r)))
  end.
Proof. reflexivity. Qed.
Lemma unknown_first k st : Forall unknown_entry (d_cache st) ->
  exists st', dv I n (S (S k)) (EVar v) a F st = Ok (D 1, st') /\ Forall unknown_entry (d_cache st') /\ d_next st' = d_next st.
Proof.
  intros C. rewrite dv_S. destruct (lookup I F (d_cache st)) as [d|] eqn:E.
  - apply unknown_lookup in E; auto; [|cbn; auto]. destruct E as [K|[K|(m & _ & K)]]; try discriminate. injection K as ->. eauto.
  - unfold F at 1. cbn [diff_visit]. change (ident (ESymFn f [EVar v]) (EVar v)) with false. cbv iota. cbn [smap].
    destruct (unknown_var k st C) as (st' & H & C' & N). rewrite H. cbn [bind fst snd].
    change (diff_symfn I n (EVar v) f [EVar v] [EInt 1] st') with (Ok (D 1, st')). cbn [bind fst snd].
    eexists. split; [reflexivity|]. split; [|exact N]. constructor; auto. right. left. reflexivity.
Qed.
Lemma unknown_next k m st : (0 < m)%Z -> Forall unknown_entry (d_cache st) ->
  exists st', dv I n (S k) (EVar v) a (D m) st = Ok (D (m + 1), st') /\ Forall unknown_entry (d_cache st') /\ d_next st' = d_next st.
Proof.
  intros Hm C. cbn [dv]. destruct (lookup I (D m) (d_cache st)) as [d|] eqn:E.
  - apply unknown_lookup in E; auto; [|cbn; auto]. destruct E as [K|[K|(m' & _ & K)]]; try discriminate. injection K as -> ->. eauto.
  - cbn [diff_visit D]. unfold diff_deriv.
    rewrite (own_function v f : is_function_of (EVar v) F = true). cbn [negb]. unfold D. rewrite C45_orders_merge by lia. cbn [bind fst snd].
    eexists. split; [reflexivity|]. split; [|reflexivity]. constructor; auto. right. right. eauto.
Qed.
Lemma unknown_reps k j : forall m st, (0 < m)%Z -> Forall unknown_entry (d_cache st) ->
  exists st', diff_reps I n (S k) (EVar v) a j (D m) st = Ok (D (m + Z.of_nat j), st') /\ d_next st' = d_next st.
Proof.
  induction j as [|j IH]; intros m st Hm C; cbn [diff_reps].
  - exists st. rewrite Z.add_0_r. auto.
  - destruct (unknown_next k m st Hm C) as (st1 & H & C' & N). rewrite H. cbn [bind fst snd].
    destruct (IH (m + 1)%Z st1 ltac:(lia) C') as (st2 & H2 & N2). exists st2. rewrite H2, N2. split; auto. do 3 f_equal. lia.
Qed.
End Unknown.

Theorem C45_unknown_function : forall I n k f v reps abstract c, (0 < reps)%Z ->
  diff I n (S (S k)) (ESymFn f [EVar v]) (EVar v) reps abstract c = Ok (EDeriv (ESymFn f [EVar v]) (EVar v) reps, c).
Proof.
  intros I n k f v reps a c Hr. unfold diff. destruct (Z.ltb_spec reps 0); [lia|]. cbn [diff_argument_ok negb].
  destruct (Z.to_nat reps) as [|j] eqn:J; [lia|]. cbn [diff_reps].
  destruct (unknown_first I n v f a k (mk_dst [] c) (Forall_nil _)) as (st & H1 & C & N). rewrite H1. cbn [bind fst snd].
  destruct (unknown_reps I n v f a (S k) j 1 st ltac:(lia) C) as (st' & H2 & N'). rewrite H2. cbn [bind fst snd].
  rewrite N', N. cbn [d_next]. do 3 f_equal. lia.
Qed.
Print Assumptions C45_unknown_function.
Example C45_unknown_function_ex :
  diff impl_ex 10 10 (ESymFn "f" [vx]) vx 4 false 0 = Ok (EDeriv (ESymFn "f" [vx]) vx 4, 0%Z).
Proof. vm_compute; reflexivity. Qed.

Definition some_env : env := mk_env (fun _ => 2) (fun _ _ => 0).
Lemma some_env_ok : env_ok some_env.
Proof. intros v. cbn. destruct (var_set v); cbn; try lra; exact Logic.I. Qed.

(** Element (i, j) of a jacobian is a derivative of function i by variable j. *)
Lemma F2_length {A B} (P : A -> B -> Prop) l m : Forall2 P l m -> length l = length m.
Proof. induction 1; cbn; congruence. Qed.
Lemma columns_ok I n k a fs : impl_ok I -> Forall exact fs -> forall vs c cols c',
  jac_columns I n k fs (map EVar vs) a c = Ok (cols, c') ->
  Forall2 (fun v col => Forall2 (is_derivative (negb a) v) fs col) vs cols.
Proof.
  intros HI Hf. induction vs as [|v vs IH]; intros c cols c' H; cbn [jac_columns map] in H.
  - injection H as <- <-. constructor.
  - cbn [diff_argument_ok negb] in H. binv H. binv H. injection H as <- <-. constructor.
    + destruct x as [col st]. cbn [fst].
      assert (G : forall s, env_ok s -> Forall2 (good s v a) fs col).
      { intros s Hs. assert (N : cache_ok s v a (d_cache (mk_dst [] c))) by constructor.
        eapply (smap_ok s v a _ (dv_ok I HI s Hs n k v a) fs _ col st Hf N E). }
      assert (L : length fs = length col).
      { eapply F2_length. apply (G some_env some_env_ok). }
      clear - G L. revert col G L. induction fs as [|f fs IH]; intros [|d col] G L; try discriminate; constructor.
      * intros s Hs W Lo. pose proof (G s Hs) as X. inversion X as [|? ? ? ? X1 X2]; subst. destruct (X1 W Lo) as (g1 & _ & g3). auto.
      * apply IH; [|now injection L]. intros s Hs. pose proof (G s Hs) as X. now inversion X.
    + destruct x0 as [cs c1]. cbn [fst]. eapply IH. exact E0.
Qed.

Theorem C45_jacobian : forall I n k fs vs abstract c rows c',
  impl_ok I -> Forall exact fs -> jacobian I n k fs (map EVar vs) abstract c = Ok (rows, c') ->
  length rows = length fs /\
  forall i f, nth_error fs i = Some f ->
  exists row, nth_error rows i = Some row /\ length row = length vs /\
  forall j v, nth_error vs j = Some v ->
  exists d, nth_error row j = Some d /\ is_derivative (negb abstract) v f d.
Proof.
  intros I n k fs vs a c rows c' HI Hf H. unfold jacobian in H. destruct fs as [|f0 fs0]; [discriminate|].
  destruct vs as [|v0 vs0]; [discriminate|]. set (fs := f0 :: fs0) in *. set (vs := v0 :: vs0) in *.
  change (match map EVar vs with [] => Throws | _ => let* cols := jac_columns I n k fs (map EVar vs) a c in
    Ok (map (fun i => map (fun col => nth i col (EInt 0)) (fst cols)) (seq 0 (length fs)), snd cols) end = Ok (rows, c')) in H.
  change (map EVar vs) with (EVar v0 :: map EVar vs0) in H at 1. cbv iota in H.
  clearbody fs vs.
  binv H. injection H as <- <-. destruct x as [cols c1]. cbn [fst snd].
  pose proof (columns_ok I n k a fs HI Hf vs c cols c1 E) as C.
  split; [now rewrite map_length, seq_length|]. intros i f Hi.
  assert (Li : (i < length fs)%nat) by (apply nth_error_Some; congruence).
  exists (map (fun col => nth i col (EInt 0)) cols). split; [|split].
  - rewrite nth_error_map, (nth_error_nth' (seq 0 (length fs)) 0%nat) by (now rewrite seq_length). cbn. now rewrite seq_nth.
  - rewrite map_length. symmetry. eapply F2_length. exact C.
  - intros j v Hj. clear - C Hj Hi. revert j Hj. induction C as [|w col ws cols Hc _ IH]; intros j Hj; [destruct j; discriminate|].
    destruct j as [|j].
    + injection Hj as ->. exists (nth i col (EInt 0)). split; [reflexivity|]. clear - Hc Hi. revert i Hi.
      induction Hc as [|g d gs ds Hg _ IH]; intros i Hi; [destruct i; discriminate|]. destruct i as [|i]; [injection Hi as ->; exact Hg|]. now apply IH.
    + apply IH. exact Hj.
Qed.
Print Assumptions C45_jacobian.
Example C45_jacobian_ex :
  jacobian impl_ex 12 12 [EMul [vx; vy]; EAdd [vx; EPow vy (EInt 2)]] [vx; vy] false 0 =
    Ok ([[vy; vx]; [EInt 1; EMul [EInt 2; vy]]], 0%Z) /\
  jacobian impl_ex 12 12 [] [vx] false 0 = Throws.
Proof. split; vm_compute; reflexivity. Qed.
