(** Every operation is written once. *)
From Coq Require Import String List Arith ZArith Bool Lia Permutation.
From Verif Require Import Outcome NumProofs IrModel IrSpec CfgModel CfgSpec CfgProps MergeProofs CountProofs ConvSpec ConvShape AstModel AstSpec AstTree StmtModel StmtSpec StmtStore StmtRegion StmtRun StmtBlock StmtProofs StmtTotal OnceSpec.
Import ListNotations.
Open Scope nat_scope.
Open Scope list_scope.

Definition tally {X} (f : X -> nat) (l : list X) : nat := list_sum (map f l).
Lemma tally_nil {X} (f : X -> nat) : tally f [] = 0.
Proof. reflexivity. Qed.
Lemma tally_cons {X} (f : X -> nat) a l : tally f (a :: l) = f a + tally f l.
Proof. reflexivity. Qed.
Lemma tally_app {X} (f : X -> nat) l l' : tally f (l ++ l') = tally f l + tally f l'.
Proof. unfold tally. now rewrite map_app, list_sum_app. Qed.
Lemma tally_le {X} (f h : X -> nat) l : (forall x, In x l -> f x <= h x) -> tally f l <= tally h l.
Proof.
  induction l as [|a l IH]; intros H; auto. rewrite !tally_cons. specialize (H a (or_introl eq_refl)) as Ha.
  specialize (IH (fun x Hx => H x (or_intror Hx))). lia.
Qed.
Lemma tally_ext {X} (f h : X -> nat) l : (forall x, In x l -> f x = h x) -> tally f l = tally h l.
Proof. intros H. apply Nat.le_antisymm; apply tally_le; intros x Hx; rewrite (H x Hx); auto. Qed.
Lemma tally_plus {X} (f h : X -> nat) l : tally (fun x => f x + h x) l = tally f l + tally h l.
Proof. induction l as [|a l IH]; auto. rewrite !tally_cons. lia. Qed.
Lemma tally_perm {X} (f : X -> nat) l l' : Permutation l l' -> tally f l = tally f l'.
Proof. induction 1; auto; rewrite ?tally_cons; lia. Qed.
Lemma tally_zero {X} (l : list X) : tally (fun _ => 0) l = 0.
Proof. induction l as [|a l IH]; auto. Qed.
Lemma tally_scale {X} (f : X -> nat) k l : tally (fun x => f x * k) l = tally f l * k.
Proof. induction l as [|a l IH]; auto. rewrite !tally_cons. lia. Qed.
Lemma tally_swap {X Y} (f : X -> Y -> nat) l l' : tally (fun x => tally (f x) l') l = tally (fun y => tally (fun x => f x y) l) l'.
Proof.
  induction l as [|a l IH]; [symmetry; apply tally_zero|]. rewrite tally_cons, IH, <- tally_plus. apply tally_ext. intros y _. now rewrite tally_cons.
Qed.
Lemma tally_flat {X Y} (f : Y -> nat) (h : X -> list Y) l : tally f (flat_map h l) = tally (fun x => tally f (h x)) l.
Proof. induction l as [|a l IH]; auto. cbn [flat_map]. now rewrite tally_app, tally_cons, IH. Qed.
(** Counting by value. *)
Notation cnt := (count_occ Nat.eq_dec).
Lemma tally_one (f : nat -> nat) a l : NoDup l -> In a l -> tally (fun x => if Nat.eq_dec a x then f x else 0) l = f a.
Proof.
  induction 1 as [|b l Nb ND IH]; intros I; [contradiction|]. rewrite tally_cons. destruct I as [->|I].
  - destruct (Nat.eq_dec a a); [|congruence]. rewrite (tally_ext _ (fun _ => 0)), tally_zero; [lia|]. intros x Hx. destruct (Nat.eq_dec a x); congruence.
  - rewrite IH by auto. destruct (Nat.eq_dec a b); [congruence|reflexivity].
Qed.
Lemma tally_count (f : nat -> nat) l U : NoDup U -> (forall a, In a l -> In a U) -> tally f l = tally (fun a => cnt l a * f a) U.
Proof.
  intros ND. induction l as [|a l IH]; intros H; [symmetry; apply tally_zero|].
  rewrite tally_cons, IH by (intros b Hb; apply H; now right). rewrite <- (tally_one f a U ND (H a (or_introl eq_refl))) at 1. rewrite <- tally_plus.
  apply tally_ext. intros x _. cbn [count_occ]. destruct (Nat.eq_dec a x); lia.
Qed.
Lemma tally_cnt_le (p : nat -> bool) l U : NoDup U -> tally (fun w => if p w then cnt l w else 0) U <= length (filter p l).
Proof.
  intros ND. induction l as [|a l IH]; [cbn [count_occ]; rewrite (tally_ext _ (fun _ => 0)), tally_zero; auto; intros x _; now destruct (p x)|].
  rewrite (tally_ext _ (fun w => (if Nat.eq_dec a w then (if p w then 1 else 0) else 0) + (if p w then cnt l w else 0))).
  - rewrite tally_plus. cbn [filter]. destruct (in_dec Nat.eq_dec a U) as [I|I].
    + rewrite (tally_one (fun w => if p w then 1 else 0) a U ND I). destruct (p a); cbn [length]; lia.
    + rewrite (tally_ext (fun w => if Nat.eq_dec a w then _ else 0) (fun _ => 0)), tally_zero; [destruct (p a); cbn [length]; lia|].
      intros x Hx. destruct (Nat.eq_dec a x); congruence.
  - intros x _. cbn [count_occ]. destruct (Nat.eq_dec a x), (p x); lia.
Qed.

Lemma mapM_mono {X Y} (f h : X -> outcome Y) l r : (forall x y, In x l -> f x = Ok y -> h x = Ok y) -> mapM f l = Ok r -> mapM h l = Ok r.
Proof.
  revert r. induction l as [|a l IH]; intros r H E; cbn in *; auto. binv E. binv E. rewrite (H a x (or_introl eq_refl) E0). cbn [bind].
  rewrite (IH x0 (fun x y Hx => H x y (or_intror Hx)) E1). exact E.
Qed.
Lemma conditional_mono g : forall k k' v l, k <= k' -> conditional_outputs k g v = Ok l -> conditional_outputs k' g v = Ok l.
Proof.
  induction k as [|k IH]; intros [|k'] v l L E; try discriminate; [lia|]. cbn [conditional_outputs] in *. binv E. rewrite (mapM_mono (conditional_outputs k g) (conditional_outputs k' g) _ x); auto.
  intros y z _ Ey. apply IH; auto. lia.
Qed.
Lemma inline_mono g : forall k k' v l, k <= k' -> should_inline_constant k g v = Ok l -> should_inline_constant k' g v = Ok l.
Proof.
  induction k as [|k IH]; intros [|k'] v l L E; try discriminate; [lia|]. cbn [should_inline_constant] in *.
  destruct (op_of g v); auto. destruct (args g v); auto. apply IH; auto. lia.
Qed.

Lemma access_work l : forall a, work (fold_left access_field l a) = work a.
Proof. induction l as [|x l IH]; intros a; cbn [fold_left]; auto. rewrite IH. destruct x; reflexivity. Qed.

Section Once.
Variable N : names.
Variable outs : string -> option arg_type.
Variable c : cfg.
Variables (e : nat) (all : list nat).
Hypothesis BR : branching c e all.
Hypothesis NG : forall t v i, In v (ops_of c t) -> op_of (c_vals c) v <> OGet i.
Notation g := (c_vals c).
Notation next := (desc c).
Variable F : nat.

(** Has a value a variable, and how many variables of phi functions is it assigned to? *)
Definition nphi (v : name) : nat := length (filter (fun x => negb (is_phi (op_of g x))) (cons_of g v)).
Definition outputs_of (v : name) : list name := match conditional_outputs F g v with Ok l => l | _ => [] end.
Definition inline_of (v : name) : bool := match should_inline_constant F g v with Ok b => b | _ => true end.
Definition kept (v : name) : bool := is_argument_read (op_of g v) || (negb (inline_of v) && ((1 <? nphi v) || (1 <? length (outputs_of v)))).

Definition is_load (o : op) : bool := match o with OLoad _ => true | _ => false end.
(** The work of writing a value where those kept have variables. *)
Fixpoint W (k : nat) (v : name) : nat :=
  match k with
  | O => 0
  | S k => if control (op_of g v) || is_load (op_of g v) then 0
           else cost g v + tally (fun a => if kept a then 0 else W k a) (args g v)
  end.
Definition AW (k : nat) (a : name) : nat := if kept a then 0 else W k a.
Lemma W_step k : forall v, W k v <= W (S k) v.
Proof.
  induction k as [|k IH]; intros v; [cbn; lia|]. cbn [W] in *. destruct (control _ || is_load _); [lia|].
  apply Nat.add_le_mono_l. apply tally_le. intros a _. destruct (kept a); auto.
Qed.
Lemma W_le k k' v : k <= k' -> W k v <= W k' v.
Proof. induction 1; auto. etransitivity; [exact IHle|apply W_step]. Qed.
Lemma AW_le k k' v : k <= k' -> AW k v <= AW k' v.
Proof. intros L. unfold AW. destruct (kept v); auto. now apply W_le. Qed.
Lemma W_unfold k v : control (op_of g v) = false -> W k v <= cost g v + tally (AW k) (args g v).
Proof.
  intros Np. etransitivity; [apply W_step|]. cbn [W]. rewrite Np. cbn [orb]. destruct (is_load _); [lia|]. reflexivity.
Qed.
Lemma W_control k v : control (op_of g v) = true -> W k v = 0.
Proof. intros C. destruct k; cbn [W]; auto. now rewrite C. Qed.
Lemma constant_W v : constant g v -> forall k, W k v = 0.
Proof.
  induction 1 as [v l O|v t a O Ea C IH]; intros [|k]; cbn [W]; auto; rewrite O; cbn [control is_load orb]; auto.
  unfold cost. rewrite O, Ea, tally_cons, tally_nil, IH. destruct (kept a); auto.
Qed.

Lemma visit_work (P : name -> Prop) d1 : (forall v a, P v -> op_of g v <> OPhi -> In a (args g v) -> P a) -> (forall v i, P v -> op_of g v <> OGet i) ->
  (forall a, P a -> control (op_of g a) = false -> kept a = true -> declared d1 a = true) ->
  forall k v x, (op_of g v <> OPhi -> forall a, In a (args g v) -> P a) -> (forall i, op_of g v <> OGet i) -> visit_value N g d1 k v = Ok x -> work x <= W k v.
Proof.
  intros Cl Ng Df. induction k as [|k IH]; intros v x Pv Gv E; [discriminate|].
  assert (Ar : forall p a y, P a -> visit_argument N g d1 (visit_value N g d1 k) p a = Ok y -> work y <= AW k a).
  { intros p a y Pa Ea. unfold visit_argument in Ea. unfold AW. destruct (declared d1 a) eqn:Da.
    - injection Ea as <-. cbn. lia.
    - assert (B : forall y, visit_value N g d1 k a = Ok y -> work y <= if kept a then 0 else W k a).
      { intros z Ez. destruct (control (op_of g a)) eqn:Ca.
        - destruct k; cbn [visit_value] in Ez; [discriminate|]. destruct (op_of g a); discriminate.
        - destruct (kept a) eqn:Db; [rewrite (Df a Pa Ca Db) in Da; discriminate|]. apply IH; auto. intros Np b Hb. now apply (Cl a b). }
      destruct p as [q|]; [|now apply B]. destruct (_ <=? q); [|now apply B]. binv Ea. injection Ea as <-. cbn [work]. now apply B. }
  assert (Ml : forall p l r, (forall a, In a l -> P a) -> mapM (visit_argument N g d1 (visit_value N g d1 k) p) l = Ok r ->
    length r = length l /\ tally work r <= tally (AW k) l).
  { intros p l. induction l as [|a l IHl]; intros r Pl Er; cbn in Er; [injection Er as <-; auto|]. binv Er. binv Er. injection Er as <-.
    destruct (IHl x1) as [L1 L2]; [intros b Hb; apply Pl; now right|exact E1|]. apply Ar in E0; [|apply Pl; now left]. rewrite !tally_cons. cbn [length]. lia. }
  cbn [visit_value] in E. cbn [W]. change (fun a => if kept a then 0 else W k a) with (AW k).
  unfold cost. destruct (op_of g v) eqn:O; cbn [control is_load orb]; try discriminate E.
  all: try (specialize (Pv ltac:(discriminate))).
  all: try (exfalso; now apply (Gv i)).
  - binv E. injection E as <-. destruct (Ml (Some addition) _ _ Pv E0) as [L1 L2]. cbn [work]. change (list_sum (map work x0)) with (tally work x0). lia.
  - binv E. injection E as <-. destruct (Ml None _ _ Pv E0) as [L1 L2]. cbn [work]. change (list_sum (map work x0)) with (tally work x0). lia.
  - binv E. injection E as <-. destruct (Ml None _ _ Pv E0) as [L1 L2]. cbn [work]. change (list_sum (map work x0)) with (tally work x0). lia.
  - destruct (args g v) as [|a0 [|]]; try discriminate E. binv E. injection E as <-. apply Ar in E0; [|apply Pv; now left]. rewrite tally_cons. cbn [work]. lia.
  - destruct (args g v) as [|a0 [|a1 [|]]]; try discriminate E. binv E. binv E. injection E as <-. apply Ar in E0; [|apply Pv; now left]. apply Ar in E1; [|apply Pv; right; now left].
    rewrite !tally_cons. cbn [work]. lia.
  - destruct (args g v) as [|a0 [|a1 [|a2 [|]]]]; try discriminate E. binv E. binv E. binv E. injection E as <-. apply Ar in E0; [|apply Pv; now left]. apply Ar in E1; [|apply Pv; right; now left]. apply Ar in E2; [|apply Pv; do 2 right; now left].
    rewrite !tally_cons. cbn [work]. lia.
  - destruct (args g v) as [|a0 [|]]; try discriminate E. apply Ar in E; [|apply Pv; now left]. rewrite tally_cons. lia.
  - destruct (args g v) as [|a0 [|a1 [|]]]; try discriminate E. binv E. binv E. injection E as <-. apply Ar in E0; [|apply Pv; now left]. apply Ar in E1; [|apply Pv; right; now left].
    rewrite !tally_cons. cbn [work]. lia.
  - enough (work x = 0) by lia. destruct l; cbn [visit_load] in E; try (injection E as <-; reflexivity).
    + destruct (n_args N arg) as [[s t]|]; [|discriminate E]. unfold read_argument in E. destruct t; try (destruct (_ =? _)); try (destruct (_ <? _)); try (destruct (nth_error _ _)); try discriminate E; injection E as <-; try reflexivity.
      apply (access_work l (AArg s false)).
    + destruct (n_args N arg) as [[s t]|]; [|discriminate E]. injection E as <-. reflexivity.
  - destruct (2 <=? _); [|discriminate E]. binv E. injection E as <-. destruct (Ml (Some multiplication) _ _ Pv E0) as [L1 L2]. cbn [work]. change (list_sum (map work x0)) with (tally work x0). lia.
  - destruct (args g v) as [|a0 [|]]; try discriminate E. binv E. injection E as <-. apply Ar in E0; [|apply Pv; now left]. rewrite tally_cons. cbn [work]. lia.
Qed.

(** What the statements of a block may cost. *)
Definition Rb (v : name) : nat := if control (op_of g v) then 0 else if kept v then W F v else length (outputs_of v) * W F v.
Definition Rs (v : name) : nat := match op_of g v with OSave _ _ => tally (AW F) (args g v) | _ => 0 end.
Definition Rj (v : name) : nat := match op_of g v with OJump => tally (AW F) (args g v) | _ => 0 end.
Definition RB (t : nat) : nat := tally Rb (ops_of c t) + tally Rs (ops_of c t) + tally Rj (ops_of c t).
Definition fine (v : name) : Prop := (exists l, conditional_outputs F g v = Ok l) /\ (exists b, should_inline_constant F g v = Ok b) /\
  (forall t, op_of g v = OCast t -> exists a, args g v = [a]).
Definition ready_in (P : name -> Prop) (d : list name) : Prop := forall a, P a -> control (op_of g a) = false -> kept a = true -> declared d a = true.

Section Block.
Variables (U : list nat) (t : nat).
Hypothesis CU : closed c U.
Hypothesis DM : dominated c e U t.
Lemma avail_args l1 l2 v a : ops_of c t = l1 ++ l2 -> avail c U l1 v -> op_of g v <> OPhi -> In a (args g v) -> avail c U l1 a.
Proof.
  intros E [(u & Hu & H)|H] Np Ia; [left; now apply (CU u v a)|]. apply in_split in H. destruct H as (x1 & x2 & ->).
  rewrite <- app_assoc in E. apply (avail_mono c U x1 (v :: x2)). now apply (operand_avail c e all BR U t DM x1 v (x2 ++ l2)).
Qed.
Lemma avail_get l1 l2 v i : ops_of c t = l1 ++ l2 -> avail c U l1 v -> op_of g v <> OGet i.
Proof. intros E [(u & _ & H)|H]; [now apply (NG u)|]. apply (NG t). rewrite E, in_app_iff. auto. Qed.
Lemma block_work k : k <= F -> forall l2 l1 d ss asg d', ops_of c t = l1 ++ l2 -> ready_in (avail c U l1) d -> block_operations N c k d l2 = Ok (ss, asg, d') ->
  tally written ss + tally (fun p => work (snd p)) asg <= tally Rb l2 /\ (forall v, In v l2 -> control (op_of g v) = false -> fine v) /\ ready_in (avail c U (l1 ++ l2)) d'.
Proof.
  intros Lk. induction l2 as [|v l2 IH]; intros l1 d ss asg d' El RD B.
  - cbn in B. injection B as <- <- <-. split; [cbn; lia|]. split; [intros v []|]. now rewrite app_nil_r.
  - assert (E2 : ops_of c t = (l1 ++ [v]) ++ l2) by (now rewrite <- app_assoc).
    assert (Kv : In v (ops_of c t)) by (rewrite El, in_app_iff; right; now left).
    destruct (control (op_of g v)) eqn:Cv.
    + assert (B' : block_operations N c k d l2 = Ok (ss, asg, d')) by (cbn [block_operations] in B; destruct (op_of g v); try discriminate Cv; exact B).
      destruct (IH (l1 ++ [v]) d ss asg d' E2) as (I1 & I2 & I3); auto.
      { intros a [Ha|Ha] Ca Ka; [apply RD; auto; now left|]. apply in_app_iff in Ha. destruct Ha as [Ha|[<-|[]]]; [apply RD; auto; now right|congruence]. }
      rewrite <- app_assoc in I3. split; [|split; auto].
      * rewrite tally_cons. lia.
      * intros w [<-|Hw] Cw; [congruence|auto].
    + assert (exists ph inl rhs ss2 asg2, conditional_outputs k g v = Ok ph /\ should_inline_constant k g v = Ok inl /\
        (let needs := is_argument_read (op_of g v) || (negb inl && ((1 <? nphi v) || (1 <? length ph))) in let d1 := if needs then v :: d else d in
         visit_value N g d1 k v = Ok rhs /\ block_operations N c k d1 l2 = Ok (ss2, asg2, d') /\
         ss = (if needs then [SDeclare (vname N v) (Some rhs)] else []) ++ ss2 /\
         asg = map (fun p => (vname N p, if needs then AVar (vname N v) else rhs)) ph ++ asg2)) as (ph & inl & rhs & ss2 & asg2 & Ep & Ei & B1).
      { clear -B Cv. cbn [block_operations] in B.
        destruct (op_of g v) eqn:Ov; try discriminate Cv; binv B; binv B; cbv zeta in B; binv B; binv B; destruct x2 as [[s2 a2] d2]; injection B as <- <- <-;
          exists x, x0, x1, s2, a2; (split; [assumption|split; [assumption|]]); cbv zeta; (split; [assumption|split; [assumption|split; reflexivity]]). }
      assert (Fp : conditional_outputs F g v = Ok ph) by now apply (conditional_mono g k F).
      assert (Fi : should_inline_constant F g v = Ok inl) by now apply (inline_mono g k F).
      assert (Eo : outputs_of v = ph) by (unfold outputs_of; now rewrite Fp).
      assert (En : is_argument_read (op_of g v) || (negb inl && ((1 <? nphi v) || (1 <? length ph))) = kept v) by (unfold kept, inline_of; now rewrite Fi, Eo).
      cbv zeta in B1. rewrite En in B1. destruct B1 as (Ex & B1 & -> & ->).
      assert (RD1 : ready_in (avail c U l1) (if kept v then v :: d else d)).
      { intros a Pa Ca Ka. specialize (RD a Pa Ca Ka). destruct (kept v); auto. rewrite declared_cons, RD. apply orb_true_r. }
      assert (Wk : work rhs <= W F v).
      { etransitivity; [|apply (W_le k F v Lk)]. apply (visit_work (avail c U l1) (if kept v then v :: d else d)) with (x := rhs); auto.
        - intros w a. now apply avail_args with (v :: l2).
        - intros w i. now apply avail_get with (v :: l2).
        - intros Np a. now apply (operand_avail c e all BR U t DM l1 v l2 a).
        - intros i. now apply (NG t). }
      destruct (IH (l1 ++ [v]) (if kept v then v :: d else d) ss2 asg2 d' E2) as (I1 & I2 & I3); [|exact B1|].
      { intros a [Ha|Ha] Ca Ka; [apply RD1; auto; now left|]. apply in_app_iff in Ha. destruct Ha as [Ha|[<-|[]]]; [apply RD1; auto; now right|].
        rewrite Ka, declared_cons, Nat.eqb_refl. reflexivity. }
      rewrite <- app_assoc in I3. split; [|split; auto].
      * rewrite !tally_app, tally_cons.
        assert (Ta : forall x, tally (fun p => work (snd p)) (map (fun p => (vname N p, x)) ph) = length ph * work x).
        { intros x. clear. induction ph as [|p ph IH]; auto. cbn [map length]. rewrite tally_cons, IH. reflexivity. }
        rewrite Ta. unfold Rb at 1. rewrite Cv, Eo. destruct (kept v).
        -- rewrite tally_cons, tally_nil. cbn [written work]. lia.
        -- rewrite tally_nil. assert (length ph * work rhs <= length ph * W F v) by (apply Nat.mul_le_mono_l; auto). lia.
      * intros w [<-|Hw] Cw; [|auto]. split; [eauto|]. split; [eauto|]. intros ty Ot. clear -Ex Ot. destruct k; cbn [visit_value] in Ex; [discriminate|].
        rewrite Ot in Ex. destruct (args g v) as [|a [|]]; try discriminate Ex. eauto.
Qed.
Lemma argument_work k d v a p x l1 l2 : k <= F -> ops_of c t = l1 ++ v :: l2 -> op_of g v <> OPhi -> In a (args g v) -> ready_in (avail c U (ops_of c t)) d ->
  visit_argument N g d (visit_value N g d k) p a = Ok x -> work x <= AW F a.
Proof.
  intros Lk El Np Ia RD Ea. pose proof (operand_avail c e all BR U t DM l1 v l2 a El Np Ia) as Aa.
  assert (Ab : avail c U (ops_of c t) a) by (rewrite El; now apply avail_mono).
  assert (B : forall y, declared d a = false -> visit_value N g d k a = Ok y -> work y <= AW F a).
  { intros y Da Ey. unfold AW. destruct (control (op_of g a)) eqn:Ca.
    - destruct k; cbn [visit_value] in Ey; [discriminate|]. destruct (op_of g a); discriminate.
    - destruct (kept a) eqn:Db; [rewrite (RD a Ab Ca Db) in Da; discriminate|]. etransitivity; [|apply (W_le k F a Lk)].
      apply (visit_work (avail c U l1) d) with (x := y); auto.
      + intros w b. now apply avail_args with (v :: l2).
      + intros w i. now apply avail_get with (v :: l2).
      + intros b Pb. apply RD. rewrite El. now apply avail_mono.
      + intros Npa b. now apply avail_args with (v :: l2).
      + intros i. now apply (avail_get l1 (v :: l2)). }
  unfold visit_argument in Ea. destruct (declared d a) eqn:Da; [injection Ea as <-; cbn; lia|].
  destruct p as [q|]; [|now apply B]. destruct (_ <=? q); [|now apply B]. binv Ea. injection Ea as <-. cbn [work]. now apply B.
Qed.
Lemma output_work k d last : k <= F -> ready_in (avail c U (ops_of c t)) d -> forall l2 l1 saves, ops_of c t = l1 ++ l2 ->
  output_operations N outs c k d last l2 = Ok saves -> tally written saves <= tally Rs l2.
Proof.
  intros Lk RD. induction l2 as [|v l2 IH]; intros l1 saves El E; [cbn in E; injection E as <-; auto|].
  assert (E2 : ops_of c t = (l1 ++ [v]) ++ l2) by (now rewrite <- app_assoc).
  cbn [output_operations] in E. rewrite tally_cons. unfold Rs at 1. destruct (op_of g v) eqn:Ov; try (apply (IH (l1 ++ [v]) saves E2 E)).
  destruct (args g v) as [|a [|]] eqn:Ea; try discriminate E. binv E. binv E. binv E. injection E as <-.
  specialize (IH (l1 ++ [v]) x1 E2 E3). apply (argument_work k d v a None x l1 l2) in E0; auto; [|congruence|rewrite Ea; now left].
  assert (written x0 = work x) as Wx.
  { destruct (usage =? 2); [destruct last; [|discriminate]; injection E1 as <-; reflexivity|]. destruct (outs key) as [[| |]|]; try discriminate. injection E1 as <-. reflexivity. }
  rewrite !tally_cons, tally_nil, Wx. lia.
Qed.
End Block.

Lemma sort_assign_perm l : Permutation (sort_assign l) l.
Proof.
  assert (I : forall x l, Permutation (insert_assign x l) (x :: l)).
  { intros x l'. induction l' as [|y l' IH]; cbn; auto. destruct (String.ltb _ _); auto. rewrite IH. apply perm_swap. }
  induction l as [|x l IH]; cbn; auto. fold (sort_assign l). rewrite I. now constructor.
Qed.

(** The statements of a region. *)
Definition done (U : list nat) (d : list name) : Prop := forall u a, In u U -> In a (ops_of c u) -> control (op_of g a) = false -> kept a = true -> declared d a = true.
Lemma done_grows bs U d d' : done U d -> grows c bs d d' -> done U d'.
Proof. intros D [G _] u a Hu Ka Ca Kp. apply G. now apply (D u a). Qed.
Lemma block_here U b d f ss asg d1 last saves : closed c U -> dominated c e U b -> done U d -> f <= F -> block_operations N c f d (ops_of c b) = Ok (ss, asg, d1) ->
  output_operations N outs c f d1 last (ops_of c b) = Ok saves ->
  tally written (ss ++ map (fun a => SAssign (fst a) (snd a)) (sort_assign asg) ++ saves) <= tally Rb (ops_of c b) + tally Rs (ops_of c b) /\
  (forall v, In v (ops_of c b) -> control (op_of g v) = false -> fine v) /\ done (b :: U) d1 /\ closed c (b :: U) /\ ready_in (avail c U (ops_of c b)) d1.
Proof.
  intros CU DM D Lf B Es. destruct (block_work U b CU DM f Lf (ops_of c b) [] d ss asg d1) as (I1 & I2 & I3); auto.
  { intros a [(u & Hu & Ka)|[]] Ca Kp. now apply (D u a). }
  cbn [app] in I3. pose proof (output_work U b CU DM f d1 last Lf I3 (ops_of c b) [] saves eq_refl Es) as Os.
  split; [|split; [exact I2|split; [|split; [now apply closed_more with (e := e) (all := all)|exact I3]]]].
  - rewrite !tally_app. assert (tally written (map (fun a => SAssign (fst a) (snd a)) (sort_assign asg)) = tally (fun p => work (snd p)) asg) as ->; [|lia].
    rewrite <- (tally_perm _ _ _ (sort_assign_perm asg)). unfold tally. rewrite map_map. reflexivity.
  - intros u a [<-|Hu] Ka Ca Kp; apply I3; auto; [now right|left; eauto].
Qed.

Definition once (b : nat) (k : option nat) (bs : list nat) : Prop :=
  forall U d stop f ss d', single_entry next b bs -> f <= F -> closed c U -> done U d -> dominated c e U b ->
    (forall a, In a bs -> ~ In a stop) -> (forall m, k = Some m -> In m stop) -> (forall a, In a bs -> ~ In a U) ->
    process_block N outs c f b stop d = Ok (ss, d') ->
    tally written ss <= tally RB bs /\ (forall u v, In u bs -> In v (ops_of c u) -> control (op_of g v) = false -> fine v).

Lemma region_once b k bs : region next b k bs -> once b k bs.
Proof.
  induction 1 as [m|b E|b x k bs E H IH Nb Nk|b l rr j k bl br bj E Hl IHl Hr IHr Hj IHj Inj ND Nm];
    intros U d stop f ss d' SE Lf CU D DM Hs Hk Ap Pr; (destruct f as [|f]; [discriminate|]); cbn [process_block] in Pr; assert (Lf' : f <= F) by lia.
  - specialize (Hk m eq_refl). apply in_set_spec in Hk. rewrite Hk in Pr. injection Pr as <- <-. split; auto. intros u v [].
  - rewrite in_set_false in Pr by (apply Hs; now left). rewrite E in Pr. binv Pr. destruct x as [[s1 asg] d1]. binv Pr. injection Pr as <- <-.
    destruct (block_here U b d f s1 asg d1 _ x CU DM D Lf' E0 E1) as (I1 & I2 & _). split.
    + rewrite tally_cons, tally_nil. unfold RB. lia.
    + intros u v [<-|[]]. apply I2.
  - rewrite in_set_false in Pr by (apply Hs; now left). rewrite E in Pr.
    destruct (match ops_of c b with [] => true | _ => false end); [discriminate|].
    binv Pr. destruct x0 as [[s1 asg] d1]. binv Pr. binv Pr. 
    destruct (is_jump _); [discriminate|]. binv Pr. destruct x2 as [sn dn]. injection Pr as <- <-.
    destruct (block_here U b d f s1 asg d1 _ x0 CU DM D Lf' E0 E1) as (I1 & I2 & D1 & C1 & _).
    destruct (IH (b :: U) d1 stop f sn dn) as (J1 & J2); auto.
    + now apply (entry_step next b x k bs).
    + apply dominated_next; auto. rewrite E. now left.
    + intros a Ha. apply Hs. now right.
    + intros a Ha [<-|I]; [contradiction|]. apply (Ap a); auto. now right.
    + cbn [fst]. split.
      * rewrite tally_app, tally_cons. unfold RB at 1. lia.
      * intros u v [<-|Hu]; [apply I2|now apply J2].
  - rewrite in_set_false in Pr by (apply Hs; now left). rewrite E in Pr.
    destruct (match ops_of c b with [] => true | _ => false end); [discriminate|].
    binv Pr. destruct x as [[s1 asg] d1]. binv Pr. binv Pr. destruct (is_jump (op_of g x0)) eqn:Jx; [|discriminate].
    pose proof (region_joins next b l rr j bl br bj E Hl Hr ND Inj (br_acyclic _ _ _ BR)) as Jn.
    destruct (find_merge_sound next l rr j Jn (S f)) as [Em|Em]; rewrite Em in Pr; [discriminate|]. cbn [bind] in Pr.
    binv Pr. binv Pr. binv Pr. destruct x1 as [sl dl], x2 as [sb db], x3 as [sj dj]. cbn [fst snd] in *. injection Pr as <- <-.
    destruct (block_here U b d f s1 asg d1 _ x CU DM D Lf' E0 E1) as (I1 & I2 & D1 & C1 & RD1).
    destruct (parts b bl br bj ND) as ((B1 & B2 & B3) & P1 & P2 & P3).
    assert (Il : forall a, In a bl -> In a (b :: bl ++ br ++ bj)) by (intros a Ha; right; rewrite !in_app_iff; auto).
    assert (Ir : forall a, In a br -> In a (b :: bl ++ br ++ bj)) by (intros a Ha; right; rewrite !in_app_iff; auto).
    assert (Ijj : forall a, In a bj -> In a (b :: bl ++ br ++ bj)) by (intros a Ha; right; rewrite !in_app_iff; auto).
    assert (Njs : ~ In j stop) by (apply Hs; right; rewrite !in_app_iff; auto).
    assert (Hs1 : forall y, In y (insert_set j stop) <-> y = j \/ In y stop).
    { intros y. unfold insert_set. rewrite in_set_false by auto. cbn [In]. intuition congruence. }
    assert (SEj : single_entry next j bj) by (apply (entry_join next b l rr j k bl br bj); auto).
    assert (SEl : single_entry next l bl) by (apply (entry_left next b l rr j k bl br bj); auto).
    assert (SEr : single_entry next rr br) by (apply (entry_right next b l rr j k bl br bj); auto).
    pose proof (grows_phis c j d1) as Gp. set (d2 := phi_declarations c j ++ d1) in *.
    assert (Hsl : forall a, In a bl -> ~ In a (insert_set j stop)) by (intros a Ha I; apply Hs1 in I; destruct I as [->|I]; [exact (P2 j Ha Inj)|]; apply (Hs a); auto).
    assert (Hsr : forall a, In a br -> ~ In a (insert_set j stop)) by (intros a Ha I; apply Hs1 in I; destruct I as [->|I]; [exact (P3 j Ha Inj)|]; apply (Hs a); auto).
    assert (Hkj : forall m, Some j = Some m -> In m (insert_set j stop)) by (intros m Em'; injection Em' as <-; apply Hs1; now left).
    assert (Apb : forall bx, (forall a, In a bx -> In a (b :: bl ++ br ++ bj)) -> ~ In b bx -> forall a, In a bx -> ~ In a (b :: U)).
    { intros bx Hx Nx a Ha [<-|I]; [contradiction|]. apply (Ap a); auto. }
    destruct (IHl (b :: U) d2 (insert_set j stop) f sl dl) as (Jl1 & Jl2); auto.
    { now apply (done_grows [j] (b :: U) d1). }
    { apply dominated_next; auto. rewrite E. now left. }
    { now apply (Apb bl). }
    assert (Gl : grows c bl d2 dl) by (apply (grows_region N outs c e all BR l (Some j) bl Hl f (insert_set j stop) d2 sl dl); auto).
    assert (Dl : done (b :: U) dl) by (apply (done_grows bl (b :: U) d2); auto; now apply (done_grows [j] (b :: U) d1)).
    assert (Kx : In x0 (ops_of c b)) by (apply in_last; auto).
    assert (Ox : op_of g x0 = OJump) by (destruct (op_of g x0); try discriminate Jx; reflexivity).
    destruct (args g x0) as [|cond rest] eqn:Ea; [discriminate|].
    assert (Mid : written sb <= AW F cond + tally written sl + tally RB br /\ (forall u v, In u br -> In v (ops_of c u) -> control (op_of g v) = false -> fine v) /\ done (b :: U) db).
    { destruct (match op_of g cond with OOutReq key => true | _ => false end) eqn:Q.
      - destruct (op_of g cond) eqn:Oc; try discriminate Q. destruct (outs s) eqn:Os; [|discriminate]. injection E4 as <- <-.
        assert (br = []) as ->.
        { destruct (br_optional _ _ _ BR b x0 cond s Kx Ox) as (l' & r' & y & En & Ha & Na); auto; [rewrite Ea; now left|]. rewrite E in En. injection En as <- <-.
          apply (optional_empty c e all BR b l rr j k bl br bj y); auto. now apply (br_edge _ _ _ BR). }
        split; [|split; [intros u v []|auto]]. cbn [written]. change (list_sum (map written sl)) with (tally written sl). lia.
      - assert (E4' : bind (process_block N outs c f rr (insert_set j stop) dl) (fun rr => bind (visit_argument N g (snd rr) (visit_value N g (snd rr) f) None cond) (fun x =>
                 Ok (SBranch x sl (fst rr), snd rr))) = Ok (sb, db)) by (destruct (op_of g cond); try discriminate Q; exact E4).
        clear E4. binv E4'. destruct x1 as [sr dr]. binv E4'. cbn [fst snd] in *. injection E4' as <- <-.
        destruct (IHr (b :: U) dl (insert_set j stop) f sr dr) as (Jr1 & Jr2); auto.
        { apply dominated_next; auto. rewrite E. right. now left. }
        { now apply (Apb br). }
        assert (Gr : grows c br dl dr) by (apply (grows_region N outs c e all BR rr (Some j) br Hr f (insert_set j stop) dl sr dr); auto).
        assert (Dr : done (b :: U) dr) by now apply (done_grows br (b :: U) dl).
        split; [|split; auto]. cbn [written]. change (list_sum (map written sl)) with (tally written sl). change (list_sum (map written sr)) with (tally written sr).
        assert (work x1 <= AW F cond); [|lia].
        pose proof Kx as Kx'. apply in_split in Kx'. destruct Kx' as (y1 & y2 & Ey).
        apply (argument_work U b CU DM f dr x0 cond None x1 y1 y2); auto; [congruence|rewrite Ea; now left|].
        intros a [(u & Hu & Ka)|Ka] Ca Kp; [apply (Dr u a); auto; now right|apply (Dr b a); auto; now left]. }
    destruct Mid as (M1 & M2 & Dm). rewrite erase_insert in E5 by auto.
    destruct (IHj (b :: U) db stop f sj dj) as (Jj1 & Jj2); auto.
    { apply (dominated_join c e U b l rr j k bl br bj); auto. }
    { now apply (Apb bj). }
    split.
    + repeat first [rewrite tally_app in I1|progress cbn [app]]. repeat first [rewrite tally_app|rewrite tally_cons|rewrite tally_nil]. unfold RB at 1.
      assert (tally written (map (fun p => SDeclare (vname N p) None) (phi_declarations c j)) = 0) as -> by (unfold tally; rewrite map_map; apply (tally_zero (phi_declarations c j))).
      assert (AW F cond <= tally Rj (ops_of c b)); [|lia].
      apply in_split in Kx. destruct Kx as (y1 & y2 & ->). rewrite tally_app, tally_cons. unfold Rj at 2. rewrite Ox, Ea, tally_cons. lia.
    + intros u v [<-|Hu]; [apply I2|]. rewrite !in_app_iff in Hu. destruct Hu as [Hu|[Hu|Hu]]; eauto.
Qed.

(** ** Each value is charged to its only use *)
Hypothesis DU : def_use g.
Hypothesis NS : not_shared c.
Definition values : list name := flat_map (ops_of c) all.
Lemma values_in v : In v values <-> exists t, In v (ops_of c t).
Proof.
  unfold values. rewrite in_flat_map. split; [intros (t & _ & H); eauto|]. intros (t & H). exists t. split; auto. now apply (ops_in c e all BR t v).
Qed.
Lemma values_nodup : NoDup values.
Proof.
  unfold values. assert (K : forall bs, NoDup bs -> NoDup (flat_map (ops_of c) bs)); [|apply K, (region_nodup next e None all), (br_region _ _ _ BR)].
  induction 1 as [|b bs Nb ND IH]; cbn; [constructor|]. assert (A : forall l1 l2 : list name, NoDup l1 -> NoDup l2 -> (forall x, In x l1 -> In x l2 -> False) -> NoDup (l1 ++ l2)).
  { intros l1 l2 H1 H2 H. induction H1 as [|a l1 Na H1 IH1]; cbn; auto. constructor; [rewrite in_app_iff; intros [?|?]; [auto|apply (H a); auto; now left]|]. apply IH1. intros x Hx. apply H. now right. }
  apply A; auto; [apply (br_nodup _ _ _ BR)|]. intros v H1 H2. apply in_flat_map in H2. destruct H2 as (t & Ht & H2). now rewrite (block_unique c e all BR b t v H1 H2) in Nb.
Qed.
Lemma outputs_feeds v l p : conditional_outputs F g v = Ok l -> op_of g v <> OPhi -> In p l -> exists w, op_of g w = OPhi /\ In v (args g w).
Proof.
  intros E Np Ip. apply (conditional_outputs_spec c e all BR F v l E p) in Ip. destruct Ip as [Dp [->|Fp]].
  - exfalso. apply Np. now apply declares_is_phi in Dp.
  - inversion Fp; subst; eauto.
Qed.
Lemma inline_constant : (forall v, In v values -> control (op_of g v) = false -> fine v) -> forall k v, In v values -> should_inline_constant k g v = Ok true -> constant g v.
Proof.
  intros Fv. induction k as [|k IH]; intros v Iv E; [discriminate|]. cbn [should_inline_constant] in E.
  destruct (op_of g v) eqn:Ov; try discriminate E; [|now apply constant_load with l].
  destruct (Fv v Iv) as (_ & _ & Ca); [now rewrite Ov|]. destruct (Ca _ Ov) as (a & Ea). rewrite Ea in E. eapply constant_cast; eauto. apply IH; auto.
  apply values_in in Iv. destruct Iv as (t0 & Kv). destruct (br_defined _ _ _ BR t0 v a Kv) as (u & Ka & _); [congruence|rewrite Ea; now left|]. apply values_in. eauto.
Qed.
Lemma charge v : (forall v, In v values -> control (op_of g v) = false -> fine v) -> In v values -> Rb v + nphi v * AW F v <= (if control (op_of g v) then 0 else W F v).
Proof.
  intros Fv Iv. unfold Rb, AW. destruct (control (op_of g v)) eqn:Cv.
  - rewrite W_control by auto. destruct (kept v); lia.
  - destruct (kept v) eqn:Kv; [lia|]. destruct (Fv v Iv Cv) as [(l & El) [(b & Eb) _]].
    destruct (Nat.eq_dec (W F v) 0) as [Z|Z]; [rewrite Z; lia|].
    assert (Nc : ~ constant g v) by (intros C; apply Z, constant_W, C).
    unfold kept, inline_of, outputs_of in *. rewrite El, Eb in *. apply orb_false_iff in Kv. destruct Kv as [K1 K2].
    assert (b = false) as -> by (destruct b; auto; exfalso; apply Nc; now apply (inline_constant Fv F v)).
    cbn [negb andb] in K2. apply orb_false_iff in K2. destruct K2 as [K2 K3]. apply Nat.ltb_ge in K2, K3.
    assert (length l = 0 \/ nphi v = 0) as [Y|Y]; [|rewrite Y; assert (nphi v * W F v <= 1 * W F v) by (apply Nat.mul_le_mono_r; auto); lia|rewrite Y; assert (length l * W F v <= 1 * W F v) by (apply Nat.mul_le_mono_r; auto); lia].
    destruct l as [|p l]; [now left|right]. destruct (outputs_feeds v (p :: l) p El) as (w & Ow & Iw); [intros X; rewrite X in Cv; discriminate|now left|].
    unfold nphi. destruct (filter _ (cons_of g v)) as [|w' r] eqn:Ef; auto. exfalso.
    assert (In w' (filter (fun x => negb (is_phi (op_of g x))) (cons_of g v))) as Iw' by (rewrite Ef; now left).
    apply filter_In in Iw'. destruct Iw' as [Iw' Nw']. apply (br_use _ _ _ BR) in Iw'. apply values_in in Iv. destruct Iv as (t & Kt).
    rewrite (NS t v w w' Kt Cv Nc Iw Iw' Ow) in Nw'. discriminate.
Qed.
Lemma total_values : tally (cost g) values = total_cost c.
Proof using BR.
  clear NG F.
  unfold values, total_cost. rewrite tally_flat. rewrite (tally_perm _ all (seq 0 (length (c_blocks c)))).
    - unfold tally. f_equal. unfold ops_of, block. clear. generalize (c_blocks c) as l. intros l.
      assert (K : forall (f : cblock -> nat) (d : cblock), map (fun t => f (nth t l d)) (seq 0 (length l)) = map f l); [|apply (K (fun b => list_sum (map (cost g) (b_ops b))))].
      intros f d. induction l as [|b l IH]; auto. cbn [length seq map nth]. f_equal. rewrite <- seq_shift, map_map. exact IH.
    - apply NoDup_Permutation; [now apply (region_nodup next e None all), (br_region _ _ _ BR)|apply seq_NoDup|]. intros t. rewrite (br_all _ _ _ BR), in_seq. lia.
Qed.
Theorem written_once b : first_block c = Ok b -> forall ss, create_ast N outs c F = Ok ss -> b = e -> tally written ss <= total_cost c.
Proof.
  intros Fb ss Ec ->. unfold create_ast in Ec. rewrite Fb in Ec. cbn [bind] in Ec. binv Ec. destruct x as [s d]. injection Ec as <-.
  destruct (region_once e None all (br_region _ _ _ BR) [] [] [] F s d) as (T & Fi); auto.
  { apply (entry_all c e all BR). }
  { intros u v a []. }
  { intros u a []. }
  { intros u _ Nu. apply avoids_here. congruence. }
  { discriminate. }
  assert (Fv : forall v, In v values -> control (op_of g v) = false -> fine v).
  { intros v Iv. apply values_in in Iv. destruct Iv as (t & Kt). apply (Fi t v); auto. now apply (ops_in c e all BR t v). }
  pose proof values_nodup as ND.
  assert (X0 : tally RB all = tally (fun v => Rb v + (Rs v + Rj v)) values).
  { unfold values. rewrite tally_flat. apply tally_ext. intros t _. unfold RB. rewrite !tally_plus. lia. }
  set (A := fun v => if control (op_of g v) then 0 else tally (AW F) (args g v)).
  assert (X1 : tally (fun v => Rs v + Rj v) values + tally A values <= tally (fun v => nphi v * AW F v) values).
  { rewrite <- tally_plus. etransitivity; [apply (tally_le _ (fun w => if is_phi (op_of g w) then 0 else tally (AW F) (args g w)))|].
    - intros w _. unfold Rs, Rj, A. destruct (op_of g w); cbn [is_phi control]; lia.
    - rewrite (tally_ext (fun w => if is_phi (op_of g w) then 0 else tally (AW F) (args g w)) (fun w => tally (fun a => (if negb (is_phi (op_of g w)) then cnt (cons_of g a) w else 0) * AW F a) values)).
      + rewrite tally_swap. apply tally_le. intros a _. rewrite (tally_scale (fun w => if negb (is_phi (op_of g w)) then cnt (cons_of g a) w else 0) (AW F a)).
        apply Nat.mul_le_mono_r. apply (tally_cnt_le (fun w => negb (is_phi (op_of g w)))). exact ND.
      + intros w Iw. destruct (is_phi (op_of g w)) eqn:Pw; cbn [negb]; [symmetry; apply tally_zero|].
        etransitivity; [apply (tally_count (AW F) (args g w) values ND)|apply tally_ext; intros a _; now rewrite DU].
        intros a Ha. apply values_in in Iw. destruct Iw as (t & Kw). apply values_in. destruct (br_defined _ _ _ BR t w a Kw) as (u & Ka & _); eauto.
        intros O. rewrite O in Pw. discriminate. }
  assert (X2 : tally Rb values + tally (fun v => nphi v * AW F v) values <= tally (fun v => if control (op_of g v) then 0 else W F v) values).
  { rewrite <- tally_plus. apply tally_le. intros v Iv. now apply charge. }
  assert (X3 : tally (fun v => if control (op_of g v) then 0 else W F v) values <= tally (cost g) values + tally A values).
  { rewrite <- tally_plus. apply tally_le. intros v _. unfold A. destruct (control (op_of g v)) eqn:Cv; [lia|]. now apply W_unfold. }
  pose proof total_values as X4.
  cbn [fst]. rewrite tally_plus in X0. lia.
Qed.
End Once.
