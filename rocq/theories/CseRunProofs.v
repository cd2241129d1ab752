From Coq Require Import String List ZArith Reals Bool Lra Lia Permutation.
From Verif Require Import Outcome RationalModel RationalSpec ExprModel ExprSpec ValProofs ExprProofs OrderProofs OrderSpec SumSpec NumProofs BuildModel BuildProofs PowProofs
  SumProofs FuncModel FuncProofs DerivModel DerivSpec DerivFnProofs DerivProofs MapModel MapSpec MapProofs TransSpec ClosureProofs CollectProofs MapRunProofs CseModel CseSpec CseProofs.
Import ListNotations.
Open Scope nat_scope.

Lemma vars_children V e : vars_in V e -> Forall (vars_in V) (children e).
Proof.
  destruct e; cbn [vars_in children]; intros H; auto; try (constructor; auto; fail);
  repeat match goal with H : _ /\ _ |- _ => destruct H end; auto using all_of_Forall.
  all: apply all_of_Forall; auto.
Qed.
Lemma all_of_impl (P Q : expr -> Prop) l : Forall (fun x => P x -> Q x) l -> all_of P l -> all_of Q l.
Proof. rewrite !all_of_Forall. induction 1; intros H'; constructor; [apply H; exact (Forall_inv H')|apply IHForall; exact (Forall_inv_tail H')]. Qed.
Lemma vars_impl (V W : var -> Prop) : (forall v, V v -> W v) -> forall e, vars_in V e -> vars_in W e.
Proof.
  intros H. induction e using expr_ind'; cbn [vars_in]; intros K; auto;
  repeat match goal with H : _ /\ _ |- _ => destruct H end; auto.
  all: eapply all_of_impl; eauto.
Qed.

Lemma eval_vars_in (V : var -> Prop) s s' : (forall v, V v -> ev s v = ev s' v) -> ef s = ef s' -> forall e, vars_in V e -> eval s e = eval s' e.
Proof.
  intros H F. induction e as [e IH] using children_ind. intros K.
  assert (M : map (eval s) (children e) = map (eval s') (children e)).
  { apply map_ext_in. intros a Ha. rewrite Forall_forall in IH. apply IH; auto. apply vars_children in K. rewrite Forall_forall in K. auto. }
  destruct e; cbn [children map] in M; cbn [eval]; auto; try (injection M as M1 M2 M3 || injection M as M1 M2 || injection M as M1); try congruence.
  - now rewrite (H v K).
  - now rewrite M, F.
Qed.
Lemma logs_large_vars (V : var -> Prop) s s' : (forall v, V v -> ev s v = ev s' v) -> ef s = ef s' -> forall e, vars_in V e -> logs_large s e -> logs_large s' e.
Proof.
  intros H F. induction e using expr_ind'; cbn [vars_in logs_large]; intros K L; auto;
  repeat match goal with H : _ /\ _ |- _ => destruct H end; auto.
  all: rewrite ?all_of_Forall in *; rewrite ?Forall_forall in *.
  all: try (intros x Hx; auto; fail).
  split; [intros x Hx; auto|]. intros Hf x Hx. specialize (H2 Hf). rewrite ?all_of_Forall, ?Forall_forall in H2. destruct (H2 x Hx) as (y & Hy & L'). exists y. split; auto.
  rewrite <- Hy. symmetry. eapply eval_vars_in; eauto.
Qed.

Section Cse.
Context (I : impl) (HI : impl_ok I) (n : nat) (s : env) (w : nat -> var) (least : nat) (root : expr) (V : var -> Prop).
Hypothesis Hroot : exact root.
Let mkvar (k : nat) : expr := EVar (w k).
Let counts := counts_of I root.
Notation visit := (cse_visit I n mkvar least counts).

Definition solves (repl : list (expr * expr)) : Prop :=
  Forall (fun vd => forall x, eval s (snd vd) = Rv x -> eval s (fst vd) = Rv x) repl.
Definition scope (k : nat) (v : var) : Prop := V v \/ exists j, j < k /\ v = w j.
Definition seen (st : cse_state) (k : expr) : Prop := lookup I k (s_cache st) <> None.
Definition wanted (a : expr) : Prop := is_leaf a = false /\ is_boolean a = false /\ counted I counts a = true /\ least <= count_of I a counts.
Definition good (e : expr) : Prop := exact e /\ vars_in V e.
(** The value is claimed where the assignment and the logarithms are fine. *)
Definition valued (e : expr) : Prop := env_ok s /\ shaped e /\ logs_large s e.
Definition free_of_conditionals (e : expr) : Prop := ~ conditional e /\ forall p, part_of p e -> ~ conditional p.

Lemma good_children e : good e -> Forall good (children e).
Proof.
  intros (A & D). apply exact_children in A. apply vars_children in D. rewrite Forall_forall in *. intros x Hx. split; auto.
Qed.
Lemma valued_child c e : valued e -> In c (children e) -> valued c.
Proof.
  intros (A & B & C) Hin. apply shaped_children in B. apply logs_large_children in C. rewrite Forall_forall in *. split; auto.
Qed.
Lemma free_child c e : free_of_conditionals e -> In c (children e) -> free_of_conditionals c.
Proof. intros [_ H] Hc. rewrite <- operands_children in Hc. split; [apply H; constructor; auto|]. intros p Hp. apply H. eapply part_deep; eauto. Qed.

Definition xstate : Type := cse_state * list expr.
Definition R (x : xstate) (a d : expr) : Prop :=
  (valued a -> solves (s_repl (fst x)) -> sound_pair s (a, d)) /\ vars_in (scope (List.length (s_repl (fst x)))) d /\
  seen (fst x) a /\ (free_of_conditionals a -> forall p, part_of p a -> seen (fst x) p).
Definition le (N : nat) (x y : xstate) : Prop :=
  (exists t, s_repl (fst y) = s_repl (fst x) ++ t) /\ (forall k, seen (fst x) k -> seen (fst y) k) /\
  (forall k, exact k -> seen (fst y) k -> seen (fst x) k \/ size k < N).
Record Inv (x : xstate) : Prop := mk_Inv {
  i_cache : Forall (fun kd => good (fst kd) /\ R x (fst kd) (snd kd)) (s_cache (fst x));
  i_len : List.length (snd x) = List.length (s_repl (fst x));
  i_repl : forall i v d, nth_error (s_repl (fst x)) i = Some (v, d) -> v = EVar (w i) /\ vars_in (scope i) d /\
    exists a, nth_error (snd x) i = Some a /\ (valued a -> solves (s_repl (fst x)) -> sound s d (eval s a));
  i_nodup : NoDup (snd x);
  i_want : Forall (fun a => exact a /\ part_of a root /\ wanted a) (snd x);
  i_seen : Forall (seen (fst x)) (snd x);
  i_all : forall k d, In (k, d) (s_cache (fst x)) -> wanted k -> In k (snd x)
}.

Lemma solves_app r t : solves (r ++ t) -> solves r.
Proof. unfold solves. rewrite Forall_app. tauto. Qed.
Lemma scope_le k m v : k <= m -> scope k v -> scope m v.
Proof. intros H [A|(j & A & B)]; [left; auto|right; exists j; split; auto; lia]. Qed.
Lemma le_refl N x : le N x x.
Proof. split; [exists []; now rewrite app_nil_r|]. split; auto. Qed.
Lemma le_trans N x y z : le N x y -> le N y z -> le N x z.
Proof.
  intros ((t & A) & B & C) ((u & A') & B' & C'). split; [exists (t ++ u); now rewrite A', A, app_assoc|]. split; auto.
  intros k Hk H. destruct (C' k Hk H); auto.
Qed.
Lemma le_weaken N M x y : N <= M -> le N x y -> le M x y.
Proof. intros H (A & B & C). split; auto. split; auto. intros k Hk K. destruct (C k Hk K); auto. right. lia. Qed.
Lemma R_mono N x y a d : le N x y -> R x a d -> R y a d.
Proof.
  intros ((t & A) & B & C) (P & Q & T & U). split; [|split; [|split; auto]].
  - rewrite A. intros Hva H. apply P; auto. eapply solves_app; eauto.
  - eapply vars_impl; [|exact Q]. intros v. apply scope_le. rewrite A, app_length. lia.
Qed.

Lemma lookup_in k c d : exact k -> Forall (fun kd : expr * expr => exact (fst kd)) c -> lookup I k c = Some d -> In (k, d) c.
Proof.
  intros Hk. induction 1 as [|[a b] c Ha _ IH]; cbn [lookup fst] in *; [discriminate|]. destruct (key_eq I a k) eqn:E.
  - intros H. injection H as ->. apply (key_eq_iff I) in E; auto. subst. left; auto.
  - intros H. right; auto.
Qed.
Lemma cache_exact x : Inv x -> Forall (fun kd => exact (fst kd)) (s_cache (fst x)).
Proof. intros H. eapply Forall_impl; [|apply (i_cache x H)]. cbn. intros kd [[H' _] _]. exact H'. Qed.

Lemma seen_cons st k a d : seen (mk_cse ((a, d) :: s_cache st) (s_repl st)) k <-> key_eq I a k = true \/ seen st k.
Proof. unfold seen. cbn [s_cache lookup]. destruct (key_eq I a k); split; auto; try discriminate. intros [H|H]; auto; discriminate. Qed.

Lemma cse_visit_eq e st : visit e st =
  match lookup I e (s_cache st) with
  | Some d => Ok (d, st)
  | None =>
      let* r := (if is_leaf e then Ok (e, st) else let* m := map_children I n visit e st in Ok (replace_counted I mkvar least counts e (fst m) (snd m))) in
      let c := emplace I e (fst r) (s_cache (snd r)) in
      Ok (fst c, mk_cse (snd c) (s_repl (snd r)))
  end.
Proof. destruct e; reflexivity. Qed.

(** Adding the result of [e] to the cache. *)
Lemma insert_step e d x : Inv x -> good e -> ~ seen (fst x) e ->
  (valued e -> solves (s_repl (fst x)) -> sound_pair s (e, d)) -> vars_in (scope (List.length (s_repl (fst x)))) d ->
  (free_of_conditionals e -> forall p, part_of p e -> seen (fst x) p) -> (wanted e -> In e (snd x)) ->
  let y := (mk_cse ((e, d) :: s_cache (fst x)) (s_repl (fst x)), snd x) in
  Inv y /\ le (S (size e)) x y /\ R y e d.
Proof.
  intros Hx He Hn Hd Hv Hp Hw y. pose proof (cache_exact x Hx) as Hex. destruct x as [st as_]. cbn [fst snd] in *.
  assert (Le : le (S (size e)) (st, as_) y).
  { split; [exists []; cbn; now rewrite app_nil_r|]. cbn [fst y]. split.
    - intros k Hk. apply seen_cons. auto.
    - intros k Hk H. apply seen_cons in H as [H|H]; auto. apply (key_eq_iff I) in H; auto; [|apply He]. subst. right. lia. }
  assert (Re : R y e d).
  { split; [exact Hd|]. split; [exact Hv|]. split.
    - cbn [fst y]. apply seen_cons. left. apply key_refl, He.
    - intros F p P. destruct Le as (_ & Le & _). apply Le. cbn. auto. }
  split; [|split; auto]. destruct Hx as [A B C D E F G]. constructor; cbn [fst snd y s_cache s_repl] in *; auto.
  - constructor; [split; auto|]. eapply Forall_impl; [|exact A]. intros kd [K1 K2]. split; auto. eapply R_mono; eauto.
  - eapply Forall_impl; [|exact F]. intros a Ha. apply seen_cons. auto.
  - intros k d' [Hk|Hk] W; [injection Hk as -> ->; auto|eauto].
Qed.

(** A new variable for [e], defined as [d]. *)
Lemma define_step e d x : Inv x -> good e -> part_of e root -> wanted e -> ~ seen (fst x) e ->
  (valued e -> solves (s_repl (fst x)) -> sound_pair s (e, d)) -> vars_in (scope (List.length (s_repl (fst x)))) d ->
  (free_of_conditionals e -> forall p, part_of p e -> seen (fst x) p) ->
  let v := mkvar (List.length (s_repl (fst x))) in
  let y := (mk_cse ((e, v) :: s_cache (fst x)) (s_repl (fst x) ++ [(v, d)]), snd x ++ [e]) in
  Inv y /\ le (S (size e)) x y /\ R y e v.
Proof.
  intros Hx He Hr Hw Hn Hd Hv Hp v y. pose proof (cache_exact x Hx) as Hex. destruct x as [st as_]. cbn [fst snd] in *.
  assert (Sn : forall k, seen (fst y) k <-> key_eq I e k = true \/ seen st k).
  { intros k. unfold y, seen. cbn [fst s_cache lookup]. destruct (key_eq I e k); split; auto; try discriminate. intros [H|H]; auto; discriminate. }
  assert (Le : le (S (size e)) (st, as_) y).
  { split; [exists [(v, d)]; reflexivity|]. split.
    - intros k Hk. apply Sn. auto.
    - intros k Hk H. apply Sn in H as [H|H]; auto. apply (key_eq_iff I) in H; auto; [|apply He]. subst. right. lia. }
  assert (Re : R y e v).
  { split; [|split; [|split]].
    - cbn [y fst s_repl]. intros Hva H. pose proof (solves_app _ _ H) as H'. unfold solves in H. apply Forall_app in H as [_ H]. apply Forall_inv in H. cbn [fst snd] in H.
      destruct (Hd Hva H') as [[_ Rf] _]. cbn [fst snd] in Rf. split; cbn [fst snd].
      + split; [exact Logic.I|]. destruct (eval s e) as [z| |] eqn:E; [apply refines_Rv in Rf; apply H in Rf; exact Rf|cbn; discriminate|exact Logic.I].
      + destruct Hw as (_ & Hb & _). intros B. unfold is_boolean in Hb. unfold is_bool in B. destruct e; discriminate.
    - cbn [y fst s_repl v mkvar vars_in]. right. exists (List.length (s_repl st)). split; auto. rewrite app_length. cbn. lia.
    - apply Sn. left. apply key_refl, He.
    - intros F p P. apply Sn. auto. }
  split; [|split; auto]. destruct Hx as [A B C D E F G]. constructor; cbn [fst snd y s_cache s_repl] in *; auto.
  - constructor; [split; auto|]. eapply Forall_impl; [|exact A]. intros kd [K1 K2]. split; auto. eapply R_mono; eauto.
  - rewrite !app_length, B. reflexivity.
  - intros i v' d' H. destruct (Nat.lt_ge_cases i (List.length (s_repl st))) as [Hlt|Hge].
    + rewrite nth_error_app1 in H by auto. destruct (C _ _ _ H) as (C1 & C2 & a & C3 & C4). split; auto. split; auto. exists a.
      split; [rewrite nth_error_app1; auto; lia|]. intros Sa S. apply C4; auto. eapply solves_app; eauto.
    + rewrite nth_error_app2 in H by auto. destruct (i - List.length (s_repl st)) as [|m] eqn:Em; [|destruct m; discriminate].
      assert (i = List.length (s_repl st)) by lia. subst i. injection H as <- <-. split; auto. split; auto. exists e.
      split; [rewrite nth_error_app2 by lia; rewrite B, Nat.sub_diag; reflexivity|]. intros Sa S. apply Hd; auto. eapply solves_app; eauto.
  - apply (Permutation_NoDup (l := e :: as_)); [apply Permutation_cons_append|]. constructor; auto. intros Ha. rewrite Forall_forall in F. auto.
  - apply Forall_app. split; auto. constructor; auto. split; [apply He|]. auto.
  - apply Forall_app. split; [eapply Forall_impl; [|exact F]; intros a Ha; apply Sn; auto|]. constructor; auto. apply Sn. left. apply key_refl, He.
  - intros k d' [Hk|Hk] W; apply in_or_app; [injection Hk as -> ->; right; left; auto|left; eauto].
Qed.

Lemma leaf_part e p : is_leaf e = true -> part_of p e -> False.
Proof. intros H P. assert (K : operands e = []) by (destruct e; try discriminate; reflexivity). destruct P as [e P|c e P _]; rewrite K in P; destruct P. Qed.

(** After the operands. *)
Lemma operands_step e x d st' : good e -> (e = root \/ part_of e root) ->
  Forall (fine_step Inv (le (size e)) R visit) (children e) -> Inv x -> map_children I n visit e (fst x) = Ok (d, st') ->
  exists g, Inv (st', g) /\ le (size e) x (st', g) /\ (valued e -> solves (s_repl st') -> sound_pair s (e, d)) /\
    vars_in (scope (List.length (s_repl st'))) d /\ (free_of_conditionals e -> forall p, part_of p e -> seen st' p).
Proof.
  intros He Hr Hc Hx H.
  destruct (map_run I n Inv (le (size e)) R (le_refl _) (le_trans _) (R_mono _) visit e x d st' Hc Hx H) as (g & H1 & H2 & ps & Hp & Hi & Hb).
  exists g. split; auto. split; auto. split; [|split].
  - intros Va S. pose proof Va as (Henv & Sh & Lo). eapply rebuilt_sound; [exact HI|exact Henv|exact Sh|exact Lo| |exact Hb].
    rewrite Forall_forall in *. intros [a b] Hin. destruct (Hp _ Hin) as (K & _). apply K; [|exact S]. eapply valued_child; [exact Va|].
    apply Hi. apply (in_map fst) in Hin. exact Hin.
  - eapply rebuilt_vars; [exact HI| | |exact Hb].
    + destruct He as (_ & Hv). eapply vars_impl; [|exact Hv]. intros v. left. auto.
    + eapply Forall_impl; [|exact Hp]. intros [a b] (_ & K & _). exact K.
  - intros F p P.
    assert (Hall : forall c, In c (children e) -> In c (map fst ps)).
    { intros c Hin. destruct e; cbn [rebuilt children] in *; try (destruct Hb as [-> _]; exact Hin).
      all: try (destruct Hin; fail).
      all: try (destruct Hb as (u & Hb); repeat (destruct Hb as (? & Hb)); subst ps; exact Hin).
      destruct F as [F _]. destruct F. exact Logic.I. }
    assert (Hc' : forall c, In c (children e) -> seen st' c /\ (free_of_conditionals c -> forall p, part_of p c -> seen st' p)).
    { intros c Hin. apply Hall in Hin. apply in_map_iff in Hin as ([a b] & <- & Hin). rewrite Forall_forall in Hp. destruct (Hp _ Hin) as (_ & _ & K). exact K. }
    destruct P as [e Hin|c e Hin P]; rewrite operands_children in Hin.
    + apply Hc'. auto.
    + apply (Hc' c Hin); auto. eapply free_child; eauto.
Qed.

Lemma visit_step : forall e, good e -> part_of e root -> forall N, size e < N -> fine_step Inv (le N) R visit e.
Proof.
  induction e as [e IH] using children_ind. intros He Hr N HN x d st' Hx H. rewrite cse_visit_eq in H.
  destruct (lookup I e (s_cache (fst x))) as [d0|] eqn:El.
  - injection H as <- <-. exists (snd x). rewrite <- surjective_pairing. split; auto. split; [apply le_refl|].
    apply lookup_in in El; [|apply He|now apply cache_exact]. pose proof (i_cache x Hx) as A. rewrite Forall_forall in A. apply A in El. apply El.
  - assert (Nx : ~ seen (fst x) e) by (unfold seen; rewrite El; auto).
    destruct (is_leaf e) eqn:Ef.
    + cbn [bind fst snd] in H. unfold emplace in H. rewrite El in H. cbn [fst snd] in H. injection H as <- <-.
      destruct (insert_step e e x Hx He Nx) as (A & B & C).
      * intros (Henv & Sh & Lo) S. eapply (rebuilt_sound I HI n s Henv e []); auto. destruct e; try discriminate; cbn; auto.
      * destruct He as (_ & Hv). eapply vars_impl; [|exact Hv]. intros v. left. auto.
      * intros _ p P. destruct (leaf_part _ _ Ef P).
      * intros (L & _). congruence.
      * exists (snd x). split; [exact A|]. split; [eapply le_weaken; [|exact B]; lia|exact C].
    + binv H. binv E. injection E as <-. destruct x1 as [m st1]. cbn [fst snd] in H.
      assert (Hc : Forall (fine_step Inv (le (size e)) R visit) (children e)).
      { pose proof (good_children e He) as Hg. rewrite Forall_forall in *. intros c Hin. apply IH; auto; [eapply part_child; eauto|now apply size_child]. }
      destruct (operands_step e x m st1 He (or_intror Hr) Hc Hx E0) as (g & I1 & L1 & S1 & V1 & P1).
      assert (N1 : ~ seen st1 e). { intros K. destruct L1 as (_ & _ & L1). destruct (L1 e) as [K'|K']; [apply He|exact K|auto|lia]. }
      unfold replace_counted in H. destruct (negb (is_boolean e) && counted I counts e && (least <=? count_of I e counts)) eqn:Ew.
      * cbn [fst snd s_cache s_repl] in H. unfold emplace in H. assert (E1 : lookup I e (s_cache st1) = None) by (unfold seen in N1; destruct (lookup I e (s_cache st1)); auto; destruct N1; discriminate). rewrite E1 in H.
        cbn [fst snd] in H. injection H as <- <-.
        destruct (define_step e m (st1, g) I1 He Hr) as (A & B & C); auto.
        { apply andb_prop in Ew as [Ew W3]. apply andb_prop in Ew as [W1 W2]. split; auto. split; [now apply negb_true_iff|]. split; auto. now apply Nat.leb_le. }
        exists (g ++ [e]). split; [exact A|]. split; [|exact C]. eapply le_trans; [eapply le_weaken; [|exact L1]; lia|eapply le_weaken; [|exact B]; lia].
      * cbn [fst snd] in H. unfold emplace in H. assert (E1 : lookup I e (s_cache st1) = None) by (unfold seen in N1; destruct (lookup I e (s_cache st1)); auto; destruct N1; discriminate). rewrite E1 in H.
        cbn [fst snd] in H. injection H as <- <-.
        destruct (insert_step e m (st1, g) I1 He) as (A & B & C); auto.
        { intros (W0 & W1 & W2 & W3). rewrite W1, W2, (proj2 (Nat.leb_le _ _) W3) in Ew. discriminate. }
        exists g. split; [exact A|]. split; [|exact C]. eapply le_trans; [eapply le_weaken; [|exact L1]; lia|eapply le_weaken; [|exact B]; lia].
Qed.

Lemma Inv_start : Inv (mk_cse [] [], []).
Proof. constructor; cbn; auto using NoDup_nil; try tauto. intros [|i] v d; discriminate. Qed.

(** The whole run: the expressions that got a variable, in order. *)
Lemma eliminate_run out repl : good root -> eliminate_subexpressions I n mkvar least root = Ok (out, repl) ->
  exists as_, List.length as_ = List.length repl /\ NoDup as_ /\
    Forall (fun a => part_of a root /\ wanted a) as_ /\
    (free_of_conditionals root -> forall a, part_of a root -> wanted a -> In a as_) /\
    (forall i v d, nth_error repl i = Some (v, d) -> v = EVar (w i) /\ vars_in (scope i) d /\
       exists a, nth_error as_ i = Some a /\ (valued a -> solves repl -> sound s d (eval s a))) /\
    vars_in (scope (List.length repl)) out /\ (valued root -> solves repl -> sound s out (eval s root)).
Proof.
  intros Hg H. unfold eliminate_subexpressions in H. fold (counts_of I root) in H. fold counts in H. binv H. injection H as <- <-. unfold cse_root in E.
  destruct (is_leaf root) eqn:Ef.
  - injection E as <-. cbn. exists []. cbn. split; auto. split; [constructor|]. split; auto. split; [intros _ a P; destruct (leaf_part _ _ Ef P)|].
    split; [intros [|i] v d; discriminate|]. destruct Hg as (_ & Hv). split; [eapply vars_impl; [|exact Hv]; intros v; left; auto|].
    intros (Henv & Sh & Lo) _. apply (rebuilt_sound I HI n s Henv root [] root); auto. destruct root; try discriminate; cbn; auto.
  - binv E. injection E as <-. destruct x0 as [m st1]. cbn [fst snd] in *.
    assert (Hc : Forall (fine_step Inv (le (size root)) R visit) (children root)).
    { pose proof (good_children root Hg) as Hgc. rewrite Forall_forall in *. intros c Hin. apply visit_step; auto; [constructor; now rewrite operands_children|now apply size_child]. }
    destruct (operands_step root (mk_cse [] [], []) m st1 Hg (or_introl eq_refl) Hc Inv_start E0) as (g & I1 & L1 & S1 & V1 & P1).
    unfold replace_counted. destruct (negb (is_boolean root) && counted I counts root && (least <=? count_of I root counts)) eqn:Ew.
    { exfalso. apply andb_prop in Ew as [Ew _]. apply andb_prop in Ew as [W1 W2]. apply negb_true_iff in W1.
      apply (counted_iff I root root) in W2; auto. apply size_part in W2. lia. }
    cbn [fst snd]. destruct I1 as [A B C D F G K]. cbn [fst snd] in *. exists g. split; auto. split; auto.
    split; [eapply Forall_impl; [|exact F]; cbn; tauto|]. split; [|split; auto].
    + intros Fr a P W. specialize (P1 Fr a P). unfold seen in P1. destruct (lookup I a (s_cache st1)) as [d|] eqn:El; [|congruence].
      apply lookup_in in El; [eauto|eapply exact_part; eauto|]. eapply Forall_impl; [|exact A]. cbn. intros kd [[Hk _] _]. exact Hk.
    + split; auto. intros Sa S. apply S1; auto.
Qed.
End Cse.

(** ** Running the definitions *)
Lemma run_other defs : forall s v, ~ In v (map fst defs) -> ev (run_definitions s defs) v = ev s v.
Proof.
  induction defs as [|[u d] t IH]; cbn [run_definitions map fst In]; intros s v H; auto. rewrite IH by tauto. cbn. destruct (var_eq_dec u v); tauto.
Qed.
Lemma run_functions defs : forall s, ef (run_definitions s defs) = ef s.
Proof. induction defs as [|[u d] t IH]; cbn [run_definitions]; intros s; auto. now rewrite IH. Qed.
Lemma run_ok defs : forall s, env_ok s -> Forall (fun vd : var * expr => forall x, in_set (var_set (fst vd)) x) defs -> env_ok (run_definitions s defs).
Proof.
  induction defs as [|[u d] t IH]; cbn [run_definitions]; intros s Hs H; auto. apply IH; [|exact (Forall_inv_tail H)].
  intros v. cbn. destruct (var_eq_dec u v) as [<-|]; auto. apply (Forall_inv H).
Qed.

(** No definition uses its own variable or a later one. *)
Fixpoint ordered_defs (defs : list (var * expr)) : Prop :=
  match defs with
  | [] => True
  | (v, d) :: t => vars_in (fun u => ~ In u (v :: map fst t)) d /\ ordered_defs t
  end.
Lemma run_solves defs : forall s, ordered_defs defs -> NoDup (map fst defs) ->
  Forall (fun vd => forall x, eval (run_definitions s defs) (snd vd) = Rv x -> ev (run_definitions s defs) (fst vd) = x) defs.
Proof.
  induction defs as [|[u d] t IH]; cbn [run_definitions ordered_defs map fst]; intros s Ho Hn; constructor.
  - destruct Ho as [Ho _]. inversion Hn as [|? ? Hu _]; subst. cbn [fst snd]. intros x Hx. rewrite run_other by auto. cbn.
    destruct (var_eq_dec u u); [|congruence].
    rewrite (eval_vars_in (fun v => ~ In v (u :: map fst t)) _ s) in Hx; [|cbn; intros v Hv| |exact Ho].
    + now rewrite Hx.
    + rewrite run_other by tauto. cbn. destruct (var_eq_dec u v); tauto.
    + now rewrite run_functions.
  - apply IH; [apply Ho|now inversion Hn].
Qed.

Lemma defs_of_repl (w : nat -> var) (repl : list (expr * expr)) : (forall i v d, nth_error repl i = Some (v, d) -> v = EVar (w i)) ->
  exists defs, repl = map (fun vd => (EVar (fst vd), snd vd)) defs /\ forall i v d, nth_error defs i = Some (v, d) -> v = w i.
Proof.
  revert w. induction repl as [|[v d] t IH]; intros w H.
  - exists []. split; auto. intros [|i]; discriminate.
  - destruct (IH (fun i => w (S i))) as (defs & E & Hd). { intros i v' d' Hi. apply (H (S i) v' d' Hi). }
    exists ((w 0, d) :: defs). split.
    + cbn. rewrite <- E. f_equal. f_equal. apply (H 0 v d eq_refl).
    + intros [|i] v' d' Hi; [injection Hi as <- <-; auto|exact (Hd i v' d' Hi)].
Qed.
Lemma names_of defs : forall (w : nat -> var), (forall i v d, nth_error defs i = Some (v, d : expr) -> v = w i) ->
  map fst defs = map w (seq 0 (List.length defs)).
Proof.
  induction defs as [|[v d] t IH]; intros w H; cbn; auto. f_equal; [exact (H 0 v d eq_refl)|].
  rewrite (IH (fun i => w (S i))); [|intros i v' d' Hi; exact (H (S i) v' d' Hi)]. rewrite <- seq_shift, map_map. reflexivity.
Qed.
Lemma ordered_of (V : var -> Prop) (w : nat -> var) k defs : (forall i j, w i = w j -> i = j) -> (forall v i, V v -> v <> w i) ->
  (forall i v d, nth_error defs i = Some (v, d) -> v = w (k + i) /\ vars_in (scope w V (k + i)) d) -> ordered_defs defs.
Proof.
  intros Hw HV. revert k. induction defs as [|[v d] t IH]; intros k H; cbn [ordered_defs]; auto. split.
  - destruct (H 0 v d eq_refl) as [Ev Hd]. eapply vars_impl; [|exact Hd]. intros u Hu Hin.
    assert (Hin' : exists j, k <= j /\ u = w j).
    { destruct Hin as [<-|Hin]; [exists (k + 0); split; auto; lia|]. apply in_map_iff in Hin as ([v' d'] & <- & Hin). apply In_nth_error in Hin as [j Hj].
      destruct (H (S j) v' d' Hj) as [-> _]. exists (k + S j). split; auto. lia. }
    destruct Hin' as (j & Hj & ->). destruct Hu as [Hu|(i & Hi & Hu)]; [exact (HV _ j Hu eq_refl)|]. apply Hw in Hu. lia.
  - apply (IH (S k)). intros i v' d' Hi. destruct (H (S i) v' d' Hi) as [A B]. replace (S k + i) with (k + S i) by lia. auto.
Qed.

Lemma part_occurs a e D : exact e -> distinct_parts e D -> part_of a e -> 1 <= occurrences a D.
Proof.
  intros He [_ HD] P.
  assert (Q : exists p, (p = e \/ part_of p e) /\ In a (operands p)).
  { clear - P. induction P as [e H|c e H P IH]; [exists e; auto|]. destruct IH as (p & [->|Hp] & Hin).
    - exists c. split; auto. right. constructor; auto.
    - exists p. split; auto. right. eapply part_deep; eauto. }
  destruct Q as (p & Hp & Hin). apply HD in Hp. eapply Nat.le_trans; [|apply (sum_in (uses a) D p Hp)].
  unfold uses. assert (Hf : In a (filter (ident a) (operands p))).
  { apply filter_In. split; auto. apply ident_refl, SumProofs.exact_plain. eapply exact_part; eauto. }
  destruct (filter (ident a) (operands p)); [destruct Hf|cbn; lia].
Qed.
Lemma count_counted I a l : 1 <= count_of I a l -> counted I l a = true.
Proof. induction l as [|[k m] l IH]; cbn; [lia|]. destruct (key_eq I k a); auto. Qed.
