(** Properties of common subexpression elimination. *)
From Coq Require Import String List ZArith Reals Bool Permutation Lra Lia.
From Verif Require Import Outcome CheckedIntProofs RationalModel RationalSpec ExprModel ExprSpec ValProofs ExprProofs NumProofs BuildModel BuildProofs PowProofs BuildProps
  OrderProofs OrderSpec SumSpec SumProofs FuncModel FuncProofs DerivModel DerivSpec DerivFnProofs DerivProofs MapModel MapSpec MapProofs TransSpec CollectProofs
  MapRunProofs CseModel CseSpec CseProofs CseRunProofs.
Import ListNotations.
Open Scope R_scope.

(** ** C24 *)
(** [w i] is the variable of definition [i]. The variables are distinct, do not occur in the expression and may have
    any value. *)
Definition fresh_variables (w : nat -> var) (e : expr) : Prop :=
  (forall i j, w i = w j -> i = j) /\ (forall i x, in_set (var_set (w i)) x) /\ vars_in (fun v => forall i, v <> w i) e.

Lemma wanted_iff I least e D a : exact e -> distinct_parts e D -> part_of a e ->
  (wanted I least e a <-> compound a /\ (least <= occurrences a D)%nat).
Proof.
  intros He HD P. pose proof (exact_part a e He P) as Ha. unfold wanted. fold (counts_of I e).
  assert (L : is_leaf a = false /\ is_boolean a = false <-> compound a) by (destruct a; cbn; intuition discriminate).
  split.
  - intros (A & B & C & F). rewrite (counts_correct I e D a) in F by auto. tauto.
  - intros [A B]. apply L in A as [A1 A2]. split; auto. split; auto. rewrite (counts_correct I e D a) by auto. split; auto.
    apply count_counted. rewrite (counts_correct I e D a) by auto. apply (part_occurs a e D); auto.
Qed.

(** Definition [i] only uses the variables of the expression and those of earlier definitions. *)
Theorem C24_scope : forall I n w least e out repl V,
  impl_ok I -> exact e -> vars_in V e ->
  eliminate_subexpressions I n (fun k => EVar (w k)) least e = Ok (out, repl) ->
  (forall i v d, nth_error repl i = Some (v, d) -> v = EVar (w i) /\ vars_in (fun u => V u \/ exists j, (j < i)%nat /\ u = w j) d) /\
  vars_in (fun u => V u \/ exists j, (j < List.length repl)%nat /\ u = w j) out.
Proof.
  intros I n w least e out repl V HI He Hv H. set (s := mk_env (fun _ => 0) (fun _ _ => 0)).
  destruct (eliminate_run I HI n s w least e V He out repl (conj He Hv) H) as (as_ & A & B & C & D & F & G & _).
  split; [|exact G]. intros i v d Hi. destruct (F i v d Hi) as (F1 & F2 & _). auto.
Qed.
Print Assumptions C24_scope.

(** The expressions that get a variable: distinct parts of the original that occur at least [least] times; without
    conditionals, all of them. *)
Theorem C24_definitions : forall I n w least e out repl s D,
  impl_ok I -> env_ok s -> exact e -> shaped e -> logs_large s e -> fresh_variables w e -> distinct_parts e D ->
  eliminate_subexpressions I n (fun k => EVar (w k)) least e = Ok (out, repl) ->
  exists defs stands_for,
    repl = map (fun vd => (EVar (fst vd), snd vd)) defs /\ List.length stands_for = List.length defs /\
    (forall x, eval s e = Rv x -> eval (run_definitions s defs) out = Rv x) /\
    (forall i a v d x, nth_error stands_for i = Some a -> nth_error defs i = Some (v, d) -> eval s a = Rv x ->
       ev (run_definitions s defs) v = x) /\
    NoDup stands_for /\
    (forall a, In a stands_for -> part_of a e /\ compound a /\ (least <= occurrences a D)%nat) /\
    ((forall p, p = e \/ part_of p e -> ~ conditional p) ->
     forall a, part_of a e -> compound a -> (least <= occurrences a D)%nat -> In a stands_for).
Proof.
  intros I n w least e out repl s D HI Hs He Sh Lo (Winj & Wset & Wv) HD H.
  set (V := fun v => forall i, v <> w i) in *.
  pose proof (fun s0 => eliminate_run I HI n s0 w least e V He out repl (conj He Wv) H) as R0.
  destruct (R0 s) as (as0 & _ & _ & _ & _ & F & _).
  destruct (defs_of_repl w repl) as (defs & Er & Hd). { intros i v d Hi. apply (F i v d Hi). }
  assert (Hnth : forall i v d, nth_error defs i = Some (v, d) -> nth_error repl i = Some (EVar v, d)).
  { intros i v d Hi. rewrite Er, nth_error_map, Hi. reflexivity. }
  set (s' := run_definitions s defs).
  assert (Ho : ordered_defs defs).
  { apply (ordered_of V w 0); auto.
    intros i v d Hi. split; [apply (Hd i v d Hi)|]. apply (F i (EVar v) d). now apply Hnth. }
  pose proof (names_of defs w Hd) as Hn.
  assert (Nd : NoDup (map fst defs)). { rewrite Hn. apply FinFun.Injective_map_NoDup; [intros i j; apply Winj|apply seq_NoDup]. }
  assert (Hs' : env_ok s').
  { apply run_ok; auto. apply Forall_forall. intros [v d] Hin x. apply In_nth_error in Hin as [i Hi]. cbn [fst]. rewrite (Hd i v d Hi). apply Wset. }
  assert (Hsame : forall v, V v -> ev s v = ev s' v).
  { intros v Hv. unfold s'. symmetry. apply run_other. rewrite Hn. intros Hin. apply in_map_iff in Hin as (i & Hi & _). symmetry in Hi. exact (Hv i Hi). }
  assert (Hf : ef s = ef s') by (unfold s'; now rewrite run_functions).
  assert (Lo' : logs_large s' e) by (eapply logs_large_vars; eauto).
  assert (So : solves s' repl).
  { unfold solves. rewrite Er. pose proof (run_solves defs s Ho Nd) as Q. fold s' in Q. apply Forall_map. eapply Forall_impl; [|exact Q]. intros [v d] Q1. cbn [fst snd eval] in *. intros x Hx. f_equal. now apply Q1. }
  destruct (R0 s') as (as_ & A & B & C & C' & F' & G & K).
  exists defs, as_. split; auto. split; [rewrite A, Er, map_length; auto|]. split; [|split; [|split; [auto|split]]].
  - intros x Hx. destruct (K (conj Hs' (conj Sh Lo')) So) as [_ R]. rewrite <- (eval_vars_in V s s' Hsame Hf e Wv) in R. rewrite Hx in R. now apply refines_Rv in R.
  - intros i a v d x Hi Hj Hx. fold s'. destruct (F' i (EVar v) d (Hnth i v d Hj)) as (_ & _ & a' & Ha' & Hsnd). rewrite Hi in Ha'. injection Ha' as <-.
    assert (Pa : part_of a e). { apply nth_error_In in Hi. rewrite Forall_forall in C. apply (C a Hi). }
    assert (Va : vars_in V a).
    { clear - Pa Wv. induction Pa as [e P|c e P _ IH]; rewrite operands_children in P; apply vars_children in Wv; rewrite Forall_forall in Wv; auto. }
    assert (Vv : valued s' a).
    { pose proof (conj Hs' (conj Sh Lo') : valued s' e) as Ve. clear - Pa Ve. induction Pa as [e P|c e P _ IH]; rewrite operands_children in P; [|apply IH]; eapply valued_child; eauto. }
    destruct (Hsnd Vv So) as [_ R]. rewrite <- (eval_vars_in V s s' Hsame Hf a Va) in R. rewrite Hx in R. apply refines_Rv in R.
    unfold solves in So. rewrite Forall_forall in So. specialize (So _ (nth_error_In _ _ (Hnth i v d Hj)) x R). cbn in So. now injection So.
  - intros a Hin. rewrite Forall_forall in C. destruct (C a Hin) as [P W]. split; auto. now apply (wanted_iff I least e D a).
  - intros Hc a P Q1 Q2. apply C'; auto.
    + split; [apply Hc; auto|]. intros p Hp. apply Hc; auto.
    + apply (wanted_iff I least e D a); auto.
Qed.
Print Assumptions C24_definitions.

Theorem C24_value : forall I n w least e out repl s,
  impl_ok I -> env_ok s -> exact e -> shaped e -> logs_large s e -> fresh_variables w e ->
  eliminate_subexpressions I n (fun k => EVar (w k)) least e = Ok (out, repl) ->
  exists defs, repl = map (fun vd => (EVar (fst vd), snd vd)) defs /\
    forall x, eval s e = Rv x -> eval (run_definitions s defs) out = Rv x.
Proof.
  intros I n w least e out repl s HI Hs He Sh Lo Fr H. destruct (parts_exist I e He) as [D HD].
  destruct (C24_definitions I n w least e out repl s D HI Hs He Sh Lo Fr HD H) as (defs & as_ & A & _ & B & _). exists defs. auto.
Qed.
Print Assumptions C24_value.

(** y + sin x + cos(sin x) + exp(cos(sin x)). *)
Definition cse_ex : expr := EAdd [vy; EFun Fsin [vx]; EFun Fcos [EFun Fsin [vx]]; EFun Fexp [EFun Fcos [EFun Fsin [vx]]]].
Example C24_value_ex :
  eliminate_subexpressions impl_ex 10 default_variable 2 cse_ex =
  Ok (EAdd [default_variable 0; default_variable 1; vy; EFun Fexp [default_variable 1]],
      [(default_variable 0, EFun Fsin [vx]); (default_variable 1, EFun Fcos [default_variable 0])]) /\
  eliminate_subexpressions impl_ex 10 default_variable 3 cse_ex = Ok (EAdd [vy; EFun Fcos [EFun Fsin [vx]]; EFun Fexp [EFun Fcos [EFun Fsin [vx]]]; EFun Fsin [vx]], []).
Proof. split; vm_compute; reflexivity. Qed.

(** The default variables are distinct. *)
Fixpoint parse (v : nat) (t : string) : nat :=
  match t with
  | EmptyString => v
  | String c t => parse (10 * v + (Ascii.nat_of_ascii c - 48)) t
  end.
Lemma parse_digit k : (k < 10)%nat -> (Ascii.nat_of_ascii (digit k) - 48 = k)%nat.
Proof. intros H. do 10 (destruct k as [|k]; [reflexivity|]). lia. Qed.
Lemma parse_decimal f : forall k acc, (k < 10 ^ f)%nat -> (0 < f)%nat -> parse 0 (decimal f k acc) = parse k acc.
Proof.
  induction f as [|f IH]; intros k acc Hk Hf; [lia|]. cbn [decimal].
  assert (Hm : (k mod 10 < 10)%nat) by (apply Nat.mod_upper_bound; lia). pose proof (Nat.div_mod_eq k 10) as Hdm.
  destruct (Nat.eqb_spec (k / 10) 0) as [E|E].
  - cbn [parse]. rewrite parse_digit by auto. f_equal. lia.
  - assert (Hd : (k / 10 < 10 ^ f)%nat) by (apply Nat.div_lt_upper_bound; [lia|]; rewrite <- Nat.pow_succ_r'; exact Hk).
    rewrite IH; [|exact Hd|destruct f; [change (10 ^ 0)%nat with 1%nat in Hd; lia|lia]]. cbn [parse]. rewrite parse_digit by auto. f_equal. lia.
Qed.
Theorem C24_default_variables : forall i j, default_variable i = default_variable j -> i = j.
Proof.
  intros i j H. apply (f_equal (fun e => match e with EVar (VNamed (String _ t) _) => parse 0 t | _ => O end)) in H.
  change (parse 0 (decimal (S i) i EmptyString) = parse 0 (decimal (S j) j EmptyString)) in H.
  assert (P : forall k, (k < 10 ^ S k)%nat).
  { intros k. apply Nat.lt_le_trans with (S k); [lia|]. apply Nat.lt_le_incl, Nat.pow_gt_lin_r. lia. }
  rewrite !parse_decimal in H by (auto; lia). exact H.
Qed.
Print Assumptions C24_default_variables.
Example C24_default_variables_ex : default_variable 120 = EVar (VNamed "v120" unknown_set) /\ default_variable 0 = EVar (VNamed "v0" unknown_set).
Proof. split; vm_compute; reflexivity. Qed.

(** They are not fresh if the expression has a variable of the same name: v0 + sin x + cos(sin x). *)
Definition clash_ex : expr := EAdd [default_variable 0; EFun Fsin [vx]; EFun Fcos [EFun Fsin [vx]]].
Theorem C24_names_refuted : exists e out defs s x y,
  env_ok s /\ eliminate_subexpressions impl_ex 10 default_variable 2 e = Ok (out, map (fun vd => (EVar (fst vd), snd vd)) defs) /\
  eval s e = Rv x /\ eval (run_definitions s defs) out = Rv y /\ x <> y.
Proof.
  set (v0 := VNamed "v0" unknown_set). set (s := mk_env (fun v => if var_eq_dec v v0 then 5 else 1) (fun _ _ => 0)).
  exists clash_ex, (EAdd [EMul [EInt 2; EVar v0]; EFun Fcos [EVar v0]]), [(v0, EFun Fsin [vx])], s, (5 + sin 1 + cos (sin 1)), (2 * sin 1 + cos (sin 1)).
  split; [|split; [vm_compute; reflexivity|]].
  { intros v. unfold s. cbn. destruct (var_eq_dec v v0); destruct (var_set v); cbn; lra. }
  assert (Ex : ev s (VNamed "x" real_set) = 1) by (cbn; destruct (var_eq_dec (VNamed "x" real_set) v0) as [E|]; [discriminate E|reflexivity]).
  assert (E0 : ev s v0 = 5) by (cbn; destruct (var_eq_dec v0 v0); congruence).
  split; [|split].
  - unfold clash_ex. change (default_variable 0) with (EVar v0). unfold vx. cbn [eval map vfun vsum fold_right]. rewrite Ex, E0. cbn. f_equal. lra.
  - cbn [run_definitions]. assert (Ed : eval s (EFun Fsin [vx]) = Rv (sin 1)) by (unfold vx; cbn [eval map vfun]; rewrite Ex; reflexivity).
    rewrite Ed. cbn [real_of]. assert (E1 : ev (upd s v0 (sin 1)) v0 = sin 1) by (cbn; destruct (var_eq_dec v0 v0); congruence).
    cbn [eval map vfun vsum vprod fold_right]. rewrite E1. cbn. f_equal. lra.
  - pose proof (SIN_bound 1). lra.
Qed.
Print Assumptions C24_names_refuted.

(** With the hypotheses above: variables that do not occur in [cse_ex]. *)
Example C24_scope_ex : fresh_variables (fun k => VUnique (Z.of_nat k) real_set) cse_ex /\
  eliminate_subexpressions impl_ex 10 (fun k => EVar (VUnique (Z.of_nat k) real_set)) 2 cse_ex =
  Ok (EAdd [vy; EVar (VUnique 0 real_set); EVar (VUnique 1 real_set); EFun Fexp [EVar (VUnique 1 real_set)]],
      [(EVar (VUnique 0 real_set), EFun Fsin [vx]); (EVar (VUnique 1 real_set), EFun Fcos [EVar (VUnique 0 real_set)])]).
Proof.
  split; [|vm_compute; reflexivity]. split; [|split; [intros; exact Logic.I|]].
  - intros i j H. injection H as H. apply Nat2Z.inj. exact H.
  - cbn. repeat split; intros; discriminate.
Qed.
(** sin x and cos(sin x) occur twice in it. *)
Example C24_definitions_ex : distinct_parts cse_ex
    [cse_ex; vy; vx; EFun Fsin [vx]; EFun Fcos [EFun Fsin [vx]]; EFun Fexp [EFun Fcos [EFun Fsin [vx]]]] /\
  map (fun a => occurrences a [cse_ex; vy; vx; EFun Fsin [vx]; EFun Fcos [EFun Fsin [vx]]; EFun Fexp [EFun Fcos [EFun Fsin [vx]]]])
    [EFun Fsin [vx]; EFun Fcos [EFun Fsin [vx]]; EFun Fexp [EFun Fcos [EFun Fsin [vx]]]; vx; cse_ex] = [2; 2; 1; 1; 0]%nat.
Proof.
  split; [|vm_compute; reflexivity]. split.
  - repeat constructor; cbn; intuition discriminate.
  - intros p. assert (L : forall v q, part_of q (EVar v) -> False) by (intros v q H; inversion H as [? K|? ? K _]; destruct K).
    assert (P1 : forall q, part_of q (EFun Fsin [vx]) <-> q = vx).
    { intros q. split; [|intros ->; constructor; left; auto]. intros H. inversion H as [? K|? ? K P]; destruct K as [<-|[]]; auto. destruct (L _ _ P). }
    assert (P2 : forall q, part_of q (EFun Fcos [EFun Fsin [vx]]) <-> q = EFun Fsin [vx] \/ q = vx).
    { intros q. split; [|intros [->| ->]; [constructor; left; auto|eapply part_deep; [left; reflexivity|now apply P1]]].
      intros H. inversion H as [? K|? ? K P]; destruct K as [<-|[]]; auto. apply P1 in P. auto. }
    assert (P3 : forall q, part_of q (EFun Fexp [EFun Fcos [EFun Fsin [vx]]]) <-> q = EFun Fcos [EFun Fsin [vx]] \/ q = EFun Fsin [vx] \/ q = vx).
    { intros q. split; [|intros [->|H]; [constructor; left; auto|eapply part_deep; [left; reflexivity|now apply P2]]].
      intros H. inversion H as [? K|? ? K P]; destruct K as [<-|[]]; auto. apply P2 in P. auto. }
    split.
    + cbn [In]. intros [<-|H]; auto. right.
      repeat match goal with H : _ \/ _ |- _ => destruct H as [<-|H] | H : False |- _ => destruct H end; try (constructor; cbn; auto 6; fail).
      eapply part_deep; [right; left; reflexivity|]. now apply P1.
    + cbn [In]. intros [->|H]; auto. inversion H as [? K|? ? K P]; cbn in K.
      * intuition.
      * destruct K as [<-|[<-|[<-|[<-|[]]]]]; [destruct (L _ _ P)|apply P1 in P|apply P2 in P|apply P3 in P]; intuition.
Qed.
