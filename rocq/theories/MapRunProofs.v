(** map_children with a state: the results of the operands, and the result from those. *)
From Coq Require Import String List ZArith Reals Bool Lra Lia.
From Verif Require Import Outcome RationalModel RationalSpec ExprModel ExprSpec ValProofs ExprProofs OrderSpec NumProofs BuildModel BuildProofs PowProofs
  SumProofs FuncModel FuncProofs DerivModel DerivSpec DerivFnProofs DerivProofs MapModel MapSpec MapProofs TransSpec ClosureProofs.
Import ListNotations.
Open Scope R_scope.

(** [ps]: the operands that were visited, with their results; [d]: what was built from them. *)
Definition rebuilt (I : impl) (n : nat) (e : expr) (ps : list (expr * expr)) (d : expr) : Prop :=
  match e with
  | EAdd l => l = map fst ps /\ e_add I n (map snd ps) = Ok d
  | EMul l => l = map fst ps /\ e_mul I n (map snd ps) = Ok d
  | EPow a b => exists u w, ps = [(a, u); (b, w)] /\ e_pow I n u w = Ok d
  | EFun f l => l = map fst ps /\ create_fn I n f (map snd ps) = Ok d
  | ESymFn f l => l = map fst ps /\ d = ESymFn f (map snd ps)
  | EUneval a => exists u, ps = [(a, u)] /\ uneval_fn u = Ok d
  | EStop a => exists u, ps = [(a, u)] /\ stop_fn u = Ok d
  | ECond c a b =>
      ps = [(c, EBool true); (a, d)] \/ ps = [(c, EBool false); (b, d)] \/
      exists u x y, ps = [(c, u); (a, x); (b, y)] /\ cond_fn u x y = Ok d
  | EIver c => exists u, ps = [(c, u)] /\ iverson_fn u = Ok d
  | EDeriv f x k => exists u w, ps = [(f, u); (x, w)] /\ deriv_fn u w k = Ok d
  | ESubst i t r => exists u w z, ps = [(i, u); (t, w); (r, z)] /\ subst_fn u w z = Ok d
  | ERel o a b => exists u w, ps = [(a, u); (b, w)] /\ rel_fn o u w = Ok d
  | _ => ps = [] /\ d = e
  end.

(** The state comes with a history [G] that the code does not keep. *)
Section Run.
Context {St G : Type} (I : impl) (n : nat).
Variable Inv : St * G -> Prop.
Variable le : St * G -> St * G -> Prop.
Variable R : St * G -> expr -> expr -> Prop.
Hypothesis le_refl : forall s, le s s.
Hypothesis le_trans : forall a b c, le a b -> le b c -> le a c.
Hypothesis R_mono : forall s s' a d, le s s' -> R s a d -> R s' a d.

Definition fine_step (op : strans St) (a : expr) : Prop := forall x d st',
  Inv x -> op a (fst x) = Ok (d, st') -> exists g, Inv (st', g) /\ le x (st', g) /\ R (st', g) a d.

Lemma tmap_run op l : Forall (fine_step op) l -> forall x ds st', Inv x -> tmap op l (fst x) = Ok (ds, st') ->
  exists g, Inv (st', g) /\ le x (st', g) /\ exists ps, l = map fst ps /\ ds = map snd ps /\ Forall (fun p => R (st', g) (fst p) (snd p)) ps.
Proof.
  induction 1 as [|a l Ha _ IH]; intros x ds st' Hi H; cbn [tmap] in H.
  - injection H as <- <-. exists (snd x). rewrite <- surjective_pairing. split; auto. split; auto. exists []. auto.
  - binv H. binv H. injection H as <- <-. destruct x0 as [d s1], x1 as [es s2]. cbn [fst snd] in *.
    destruct (Ha _ _ _ Hi E) as (g & I1 & L1 & T1). destruct (IH (s1, g) _ _ I1 E0) as (g' & I2 & L2 & ps & -> & -> & F).
    exists g'. split; auto. split; [eauto|]. exists ((a, d) :: ps). cbn. repeat split; auto. constructor; auto. eapply R_mono; eauto.
Qed.

Lemma map_run op e x d st' : Forall (fine_step op) (children e) -> Inv x -> map_children I n op e (fst x) = Ok (d, st') ->
  exists g, Inv (st', g) /\ le x (st', g) /\
  exists ps, Forall (fun p => R (st', g) (fst p) (snd p)) ps /\ incl (map fst ps) (children e) /\ rebuilt I n e ps d.
Proof.
  assert (One : forall (a b c : expr), incl [a; b] [a; b; c]) by (intros a b c y [->|[->|[]]]; cbn; auto).
  assert (Two : forall (a b c : expr), incl [a; c] [a; b; c]) by (intros a b c y [->|[->|[]]]; cbn; auto).
  intros Hc Hi H. destruct e; cbn [map_children children] in *.
  all: try (injection H as <- <-; exists (snd x); rewrite <- surjective_pairing; split; auto; split; auto; exists []; cbn; repeat split; auto; apply incl_refl; fail).
  all: try (binv H; try (binv H); injection H as <- <-; destruct x0 as [ds s1]; cbn [fst snd] in *;
    destruct (tmap_run _ _ Hc _ _ _ Hi E) as (g & I1 & L1 & ps & -> & -> & F); exists g; split; auto; split; auto; exists ps; cbn [rebuilt];
    repeat split; auto; apply incl_refl; fail).
  Ltac one E H1 Hi g I1 L1 T1 := destruct (H1 _ _ _ Hi E) as (g & I1 & L1 & T1).
  Ltac again E H1 st g0 Hi g I1 L1 T1 := destruct (H1 (st, g0) _ _ Hi E) as (g & I1 & L1 & T1).
  Ltac wrap g ps := exists g; split; auto; split; [eauto|]; exists ps; split; [repeat constructor; cbn; eauto|]; split; [apply incl_refl|]; cbn; eauto 10.
  - pose proof (Forall_inv Hc) as H1. pose proof (Forall_inv (Forall_inv_tail Hc)) as H2. do 3 binv H. injection H as <- <-.
    destruct x0 as [a s1], x1 as [b s2]. cbn [fst snd] in *. one E H1 Hi g I1 L1 T1. again E0 H2 s1 g I1 g2 I2 L2 T2. wrap g2 [(e1, a); (e2, b)].
  - pose proof (Forall_inv Hc) as H1. do 2 binv H. injection H as <- <-. destruct x0 as [a s1]. cbn [fst snd] in *. one E H1 Hi g I1 L1 T1. wrap g [(e, a)].
  - pose proof (Forall_inv Hc) as H1. pose proof (Forall_inv (Forall_inv_tail Hc)) as H2. pose proof (Forall_inv (Forall_inv_tail (Forall_inv_tail Hc))) as H3.
    binv H. destruct x0 as [c s1]. cbn [fst snd] in *. one E H1 Hi g I1 L1 T1.
    assert (K : (let* x := op e2 s1 in let* y := op e3 (snd x) in let* v := cond_fn c (fst x) (fst y) in Ok (v, snd y)) = Ok (d, st') ->
      exists g, Inv (st', g) /\ le x (st', g) /\ exists ps, Forall (fun p => R (st', g) (fst p) (snd p)) ps /\ incl (map fst ps) [e1; e2; e3] /\ rebuilt I n (ECond e1 e2 e3) ps d).
    { clear H. intros H. do 3 binv H. injection H as <- <-. destruct x0 as [a s2], x1 as [b s3]. cbn [fst snd] in *.
      again E0 H2 s1 g I1 g2 I2 L2 T2. again E1 H3 s2 g2 I2 g3 I3 L3 T3. wrap g3 [(e1, c); (e2, a); (e3, b)]. }
    destruct c; try exact (K H). clear K. destruct b.
    + again H H2 s1 g I1 g2 I2 L2 T2. exists g2. split; auto. split; [eauto|]. exists [(e1, EBool true); (e2, d)].
      split; [repeat constructor; cbn; eauto|]. split; [apply One|]. cbn. auto.
    + again H H3 s1 g I1 g2 I2 L2 T2. exists g2. split; auto. split; [eauto|]. exists [(e1, EBool false); (e3, d)].
      split; [repeat constructor; cbn; eauto|]. split; [apply Two|]. cbn. auto.
  - pose proof (Forall_inv Hc) as H1. do 2 binv H. injection H as <- <-. destruct x0 as [a s1]. cbn [fst snd] in *. one E H1 Hi g I1 L1 T1. wrap g [(e, a)].
  - pose proof (Forall_inv Hc) as H1. pose proof (Forall_inv (Forall_inv_tail Hc)) as H2. do 3 binv H. injection H as <- <-.
    destruct x0 as [a s1], x1 as [b s2]. cbn [fst snd] in *. one E H1 Hi g I1 L1 T1. again E0 H2 s1 g I1 g2 I2 L2 T2. wrap g2 [(e1, a); (e2, b)].
  - pose proof (Forall_inv Hc) as H1. pose proof (Forall_inv (Forall_inv_tail Hc)) as H2. pose proof (Forall_inv (Forall_inv_tail (Forall_inv_tail Hc))) as H3.
    do 4 binv H. injection H as <- <-. destruct x0 as [a s1], x1 as [b s2], x2 as [c s3]. cbn [fst snd] in *.
    one E H1 Hi g I1 L1 T1. again E0 H2 s1 g I1 g2 I2 L2 T2. again E1 H3 s2 g2 I2 g3 I3 L3 T3. wrap g3 [(e1, a); (e2, b); (e3, c)].
  - pose proof (Forall_inv Hc) as H1. do 2 binv H. injection H as <- <-. destruct x0 as [a s1]. cbn [fst snd] in *. one E H1 Hi g I1 L1 T1. wrap g [(e, a)].
  - pose proof (Forall_inv Hc) as H1. pose proof (Forall_inv (Forall_inv_tail Hc)) as H2. do 3 binv H. injection H as <- <-.
    destruct x0 as [a s1], x1 as [b s2]. cbn [fst snd] in *. one E H1 Hi g I1 L1 T1. again E0 H2 s1 g I1 g2 I2 L2 T2. wrap g2 [(e1, a); (e2, b)].
Qed.
End Run.

Section Sound.
Context (I : impl) (HI : impl_ok I) (n : nat) (s : env).
Hypothesis Henv : env_ok s.

Definition sound_pair (p : expr * expr) : Prop := sound s (snd p) (eval s (fst p)) /\ (is_bool (fst p) = true -> is_bool (snd p) = true).

Lemma pairs_values ps : Forall sound_pair ps ->
  Forall (wf s) (map snd ps) /\ Forall2 refines (map (eval s) (map snd ps)) (map (eval s) (map fst ps)).
Proof. induction 1 as [|p ps [[W R] _] _ [IH1 IH2]]; cbn; split; constructor; auto. Qed.

Lemma rebuilt_sound e ps d : shaped e -> logs_large s e -> Forall sound_pair ps -> rebuilt I n e ps d -> sound_pair (e, d).
Proof.
  intros Sh Lo Hp H. unfold sound_pair. cbn [fst snd].
  destruct (pairs_values ps Hp) as [W R].
  destruct e; cbn [rebuilt] in H.
  all: try (destruct H as [-> ->]; split; [|auto]; split; [exact Sh || exact Logic.I|apply refines_refl]; fail).
  - destruct H as [-> H]. split; [|discriminate]. eapply sound_weaken; [|cbn [eval]; apply vprod_mono, R]. apply (mul_sound I HI s Henv n); auto.
  - destruct H as [-> H]. split; [|discriminate]. eapply sound_weaken; [|cbn [eval]; apply vsum_mono, R]. apply (add_sound I HI s Henv n); auto.
  - destruct H as (u & w & -> & H). pose proof (Forall_inv Hp) as [[W1 R1] _]. pose proof (Forall_inv (Forall_inv_tail Hp)) as [[W2 R2] _]. cbn [fst snd] in *.
    split; [|discriminate]. eapply sound_weaken; [|cbn [eval]; apply vpow_mono; [exact R1|exact R2]]. apply (e_pow_sound I HI s Henv n); auto.
  - destruct H as [-> H]. split; [|discriminate]. eapply sound_weaken; [|cbn [eval]; apply vfun_mono, R]. apply (create_sound I HI s Henv n); auto.
    intros ->. destruct Lo as [_ Lo]. specialize (Lo eq_refl). apply all_of_Forall in Lo. clear - Lo Hp. induction Hp as [|p ps [[_ R] _] _ IH]; cbn in *; constructor.
    + apply Forall_inv in Lo. destruct Lo as (y & Hy & L). intros _ x Hx. rewrite Hy in R. apply refines_Rv in R. congruence.
    + apply IH. now apply Forall_inv_tail in Lo.
  - destruct H as [-> ->]. split; [|discriminate]. split; [cbn; now apply (wf_list s)|]. cbn [eval].
    destruct (reals (map (eval s) (map fst ps))) as [xs|] eqn:Ex; [|apply refines_top]. rewrite (reals_mono _ _ _ R Ex). apply refines_refl.
  - destruct H as (u & -> & H). pose proof (Forall_inv Hp) as [[W1 R1] _]. cbn [fst snd] in *. split; [|discriminate].
    eapply sound_weaken; [|exact R1]. apply uneval_sound; auto.
  - split; [|discriminate]. destruct H as [->|[->|(u & x & y & -> & H)]].
    + pose proof (Forall_inv Hp) as [[W1 R1] _]. pose proof (Forall_inv (Forall_inv_tail Hp)) as [S2 _]. cbn [fst snd eval] in *.
      destruct (eval s e1) as [v| |] eqn:V; try (split; [apply S2|apply refines_top]; fail). apply refines_Rv in R1. injection R1 as <-.
      unfold vcond. destruct (Req_EM_T 1 1); [|lra]. exact S2.
    + pose proof (Forall_inv Hp) as [[W1 R1] _]. pose proof (Forall_inv (Forall_inv_tail Hp)) as [S2 _]. cbn [fst snd eval] in *.
      destruct (eval s e1) as [v| |] eqn:V; try (split; [apply S2|apply refines_top]; fail). apply refines_Rv in R1. injection R1 as <-.
      unfold vcond. destruct (Req_EM_T 0 1); [lra|]. destruct (Req_EM_T 0 0); [|lra]. exact S2.
    + pose proof (Forall_inv Hp) as [[W1 R1] _]. pose proof (Forall_inv (Forall_inv_tail Hp)) as [[W2 R2] _].
      pose proof (Forall_inv (Forall_inv_tail (Forall_inv_tail Hp))) as [[W3 R3] _]. cbn [fst snd] in *.
      eapply sound_weaken; [|cbn [eval]; apply vcond_mono; [exact R1|exact R2|exact R3]]. apply cond_sound; auto.
  - destruct H as (u & -> & H). pose proof (Forall_inv Hp) as [[W1 R1] B1]. cbn [fst snd] in *. split; [|discriminate].
    destruct Sh as [Hb _]. eapply sound_weaken; [|exact R1]. apply iverson_sound; auto.
  - destruct H as (u & w & -> & H). pose proof (Forall_inv Hp) as [[W1 R1] _]. pose proof (Forall_inv (Forall_inv_tail Hp)) as [[W2 R2] _]. cbn [fst snd] in *.
    split; [|discriminate]. split; [|apply refines_top]. eapply deriv_sound; [| |exact H]; auto.
  - destruct H as (u & w & z & -> & H). pose proof (Forall_inv Hp) as [[W1 R1] _]. pose proof (Forall_inv (Forall_inv_tail Hp)) as [[W2 R2] _].
    pose proof (Forall_inv (Forall_inv_tail (Forall_inv_tail Hp))) as [[W3 R3] _]. cbn [fst snd] in *.
    split; [|discriminate]. split; [|apply refines_top]. eapply subst_wf; [| | |exact H]; auto.
  - destruct H as (u & -> & H). pose proof (Forall_inv Hp) as [[W1 R1] _]. cbn [fst snd] in *. split; [|discriminate].
    eapply sound_weaken; [|exact R1]. apply stop_sound; auto.
  - destruct H as (u & w & -> & H). pose proof (Forall_inv Hp) as [[W1 R1] _]. pose proof (Forall_inv (Forall_inv_tail Hp)) as [[W2 R2] _]. cbn [fst snd] in *.
    destruct (rel_sound s o _ _ _ W1 W2 H) as [B S]. split; [|intros _; exact B].
    eapply sound_weaken; [exact S|]. cbn [eval]. apply vrel_mono; auto.
Qed.
End Sound.

(** The variables of the result are variables of the results of the operands. *)
Section Vars.
Context (I : impl) (HI : impl_ok I) (n : nat) (V : var -> Prop).

Lemma vars_closed : closed (vars_in V).
Proof. constructor; cbn; intros; auto; try tauto; now rewrite all_of_Forall. Qed.

Lemma rebuilt_vars e ps d : vars_in V e -> Forall (fun p => vars_in V (snd p)) ps -> rebuilt I n e ps d -> vars_in V d.
Proof.
  intros He Hp H.
  assert (F : Forall (vars_in V) (map snd ps)) by (clear - Hp; induction Hp; cbn; constructor; auto).
  destruct e; cbn [rebuilt] in H.
  all: try (destruct H as [-> ->]; exact He).
  - destruct H as [-> H]. eapply Q_e_mul; eauto using vars_closed.
  - destruct H as [-> H]. eapply Q_e_add; eauto using vars_closed.
  - destruct H as (u & w & -> & H). pose proof (Forall_inv F). pose proof (Forall_inv (Forall_inv_tail F)). eapply Q_e_pow; [| | | |exact H]; eauto using vars_closed.
  - destruct H as [-> H]. eapply Q_create_fn; [| | | |exact H]; eauto using vars_closed.
    intros _ a Ha. cbn. destruct ps; cbn in *; [discriminate|]. injection Ha as <-. apply Forall_inv in F. auto.
  - destruct H as [-> ->]. cbn. now apply all_of_Forall.
  - destruct H as (u & -> & H). pose proof (Forall_inv F) as F1. cbn in F1. unfold uneval_fn in H. destruct u; injection H as <-; auto.
  - destruct H as [->|[->|(u & x & y & -> & H)]].
    + exact (Forall_inv (Forall_inv_tail F)).
    + exact (Forall_inv (Forall_inv_tail F)).
    + pose proof (Forall_inv F) as F1. pose proof (Forall_inv (Forall_inv_tail F)) as F2. pose proof (Forall_inv (Forall_inv_tail (Forall_inv_tail F))) as F3. cbn [snd] in *.
      unfold cond_fn in H. destruct (ident u (EBool true)), (ident u (EBool false)), (ident x y); injection H as <-; cbn; auto.
  - destruct H as (u & -> & H). pose proof (Forall_inv F) as F1. cbn in F1. unfold iverson_fn in H. destruct u; injection H as <-; auto.
  - destruct H as (u & w & -> & H). pose proof (Forall_inv F) as F1. pose proof (Forall_inv (Forall_inv_tail F)) as F2. cbn [snd] in *.
    unfold deriv_fn in H. destruct (_ <=? 0)%Z; [discriminate|]. destruct (negb (is_diff_arg w)); [discriminate|].
    destruct u; try (injection H as <-; split; auto; fail). destruct (ident u2 w); injection H as <-; split; auto. apply F1.
  - destruct H as (u & w & z & -> & H). pose proof (Forall_inv F) as F1. pose proof (Forall_inv (Forall_inv_tail F)) as F2.
    pose proof (Forall_inv (Forall_inv_tail (Forall_inv_tail F))) as F3. cbn [snd] in *.
    unfold subst_fn in H. destruct (is_num u); [injection H as <-; auto|]. destruct (is_num w); [discriminate|]. destruct (ident w z); injection H as <-; cbn; auto.
  - destruct H as (u & -> & H). pose proof (Forall_inv F) as F1. cbn in F1. unfold stop_fn in H. destruct u; injection H as <-; auto.
  - destruct H as (u & w & -> & H). pose proof (Forall_inv F) as F1. pose proof (Forall_inv (Forall_inv_tail F)) as F2. cbn [snd] in *.
    unfold rel_fn in H. destruct (is_inf u || is_inf w || is_undefined u || is_undefined w); [discriminate|]. binv H. destruct x as [v|]; [injection H as <-; exact Logic.I|].
    destruct o; try (injection H as <-; cbn; auto; fail). binv H. destruct x; injection H as <-; cbn; auto.
Qed.
End Vars.
