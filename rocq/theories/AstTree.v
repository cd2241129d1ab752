(** The tree made for a value stands for that value, and fits when the operands of every operation may stand there. *)
From Coq Require Import String Ascii List Arith ZArith Bool Lia.
From Verif Require Import Outcome NumProofs IrModel AstModel CppSpec AstSpec AstProofs.
Import ListNotations.
Open Scope string_scope.
Open Scope nat_scope.

Lemma all_app p a b : all_chars p (a ++ b) = all_chars p a && all_chars p b.
Proof. induction a as [|c a IH]; cbn; [reflexivity|]. now rewrite IH, andb_assoc. Qed.
Lemma all_weak (p q : ascii -> bool) s : (forall c, p c = true -> q c = true) -> all_chars p s = true -> all_chars q s = true.
Proof.
  intros H. induction s as [|c s IH]; cbn; [auto|]. intros E. apply andb_true_iff in E as [E1 E2]. now rewrite H, IH.
Qed.
Lemma uint_digits d : all_chars is_digit (DecimalString.NilZero.string_of_uint d) = true.
Proof. destruct d; try reflexivity; apply digits_chars. Qed.
Lemma dec_digits z : (0 <= z)%Z -> all_chars is_digit (dec z) = true.
Proof. destruct z as [|p|p]; intros L; [reflexivity|apply uint_digits|lia]. Qed.
Lemma zeros_digits n : all_chars is_digit (zeros n) = true.
Proof. induction n; cbn; auto. Qed.
Lemma variable_identifier w n : identifier (variable_name w n).
Proof.
  unfold variable_name. cbn [append identifier]. split; [reflexivity|]. split.
  - apply (all_weak is_digit); [intros c E; unfold is_word_char; rewrite E; apply orb_true_r|].
    rewrite all_app, zeros_digits. apply dec_digits. lia.
  - reflexivity.
Qed.

Section Tree.
  Variable ftext : load_src -> string.
  Variable N : names.
  Variable g : graph.
  Variable d : list name.

  Definition lv (o : op) : nat :=
    match o with
    | OCond => 0 | OCompare _ => 3 | OAdd | OCallStd F_signum => 5 | OMul | ODiv => 6 | ONeg => 7
    | OLoad (LInt z) => if (z <? 0)%Z then 7 else 8
    | OCopy | OGet _ => 0
    | _ => 8
    end.

  Lemma mapM_Forall2 {A B} (f : A -> outcome B) l r : mapM f l = Ok r -> Forall2 (fun a b => f a = Ok b) l r.
  Proof.
    revert r. induction l as [|a l IH]; intros r E; cbn in E.
    - injection E as <-. constructor.
    - binv E. binv E. injection E as <-. constructor; auto.
  Qed.
  Lemma Forall2_length {A B} (R : A -> B -> Prop) l r : Forall2 R l r -> length l = length r.
  Proof. induction 1; cbn; auto. Qed.
  Lemma access_level seq : forall a, level a = 8 -> minus a = false -> object a = true ->
    level (fold_left access_field seq a) = 8 /\ minus (fold_left access_field seq a) = false /\ object (fold_left access_field seq a) = true.
  Proof.
    induction seq as [|x seq IH]; intros a L Mi Ob; cbn; [auto|]. apply IH; destruct x; reflexivity.
  Qed.
  Lemma load_level l e : visit_load N l = Ok e -> lv (OLoad l) = level e /\ minus e = negative_load (OLoad l).
  Proof.
    destruct l as [z|n dd|b|c|b|v|a i|a]; cbn; intros E; try (injection E as <-; auto; fail).
    - destruct (n_args N a) as [[s t]|]; [|discriminate]. unfold read_argument in E.
      destruct t as [|rows cols|elems].
      + destruct (i =? 0); [|discriminate]. injection E as <-. auto.
      + destruct (i <? _); [|discriminate]. injection E as <-. auto.
      + destruct (nth_error elems i) as [seq|]; [|discriminate]. injection E as <-.
        destruct (access_level seq (AArg s false) eq_refl eq_refl eq_refl) as (L & Mi & _). auto.
    - destruct (n_args N a) as [[s t]|]; [|discriminate]. injection E as <-. auto.
  Qed.
  Lemma visit_level k n e :
    match op_of g n with OAdd | OMul => 2 <= length (args g n) | _ => True end ->
    visit_value N g d k n = Ok e -> lv (op_of g n) <= level e /\
      (is_copy (op_of g n) = false -> (forall i, op_of g n <> OGet i) -> minus e = is_neg (op_of g n) || negative_load (op_of g n)).
  Proof.
    destruct k as [|k]; [discriminate|]. cbn [visit_value]. intros Ar E.
    destruct (op_of g n) as [ |f|f|t|r| | |t| |i| |l| | |s| |u s] eqn:Eo.
    - binv E. injection E as <-. apply mapM_Forall2 in E0. apply Forall2_length in E0. rewrite E0 in Ar.
      destruct x as [|x1 [|x2 xs]]; cbn in Ar; try lia. cbn. split; [lia|auto].
    - binv E. injection E as <-. cbn. auto.
    - binv E. injection E as <-. cbn. destruct f; auto.
    - destruct (args g n) as [|a [|? ?]]; try discriminate. binv E. injection E as <-. cbn. auto.
    - destruct (args g n) as [|a [|b [|? ?]]]; try discriminate. binv E. binv E. injection E as <-. destruct r; cbn; split; auto; lia.
    - destruct (args g n) as [|c [|a [|b [|? ?]]]]; try discriminate. binv E. binv E. binv E. injection E as <-. cbn. auto.
    - split; [cbn; lia|intros H; discriminate].
    - discriminate.
    - destruct (args g n) as [|a [|b [|? ?]]]; try discriminate. binv E. binv E. injection E as <-. cbn. auto.
    - split; [cbn; lia|]. intros _ H. exfalso. now apply (H i).
    - discriminate.
    - destruct (load_level l e) as [L Mi].
      + now destruct (args g n).
      + split; [lia|]. intros _ _. rewrite Mi. reflexivity.
    - destruct (2 <=? length (args g n)); [|discriminate]. binv E. injection E as <-. apply mapM_Forall2 in E0. apply Forall2_length in E0. rewrite E0 in Ar.
      destruct x as [|x1 [|x2 xs]]; cbn in Ar; try lia. cbn. split; [lia|auto].
    - destruct (args g n) as [|a [|? ?]]; try discriminate. binv E. injection E as <-. cbn. auto.
    - discriminate.
    - discriminate.
    - discriminate.
  Qed.

  Hypothesis NK : forall v, v < g_next g -> node_ok g v.

  Section Means.
  (** The tree stands for the value. *)
  Context {V : Type} (M : meaning V) (E : name -> V).
  Hypothesis VE : valuation M N g d E.

  Lemma access_means seq : forall a, value_of M (fold_left access_field seq a) = fold_left (access_value M) seq (value_of M a).
  Proof. induction seq as [|x seq IH]; intros a; cbn; [reflexivity|]. rewrite IH. now destruct x. Qed.
  Lemma load_means l e : visit_load N l = Ok e -> load_value M N l = Some (value_of M e).
  Proof.
    destruct l as [z|n dd|b|c|b|v|a i|a]; cbn; intros H; try (injection H as <-; reflexivity).
    - destruct (n_args N a) as [[s t]|]; [|discriminate]. unfold read_argument in H. destruct t as [|rows cols|elems].
      + destruct (i =? 0); [|discriminate]. now injection H as <-.
      + destruct (i <? _); [|discriminate]. now injection H as <-.
      + destruct (nth_error elems i) as [seq|] eqn:En; [|discriminate]. injection H as <-. cbn. rewrite access_means.
        now rewrite (nth_error_nth _ _ _ En).
    - destruct (n_args N a) as [[s t]|]; [|discriminate]. injection H as <-. now destruct t.
  Qed.
  Theorem visit_means : forall k n e, n < g_next g -> visit_value N g d k n = Ok e ->
    operation_value M N (op_of g n) (ty_of g n) (map E (args g n)) = Some (value_of M e).
  Proof.
    induction k as [|k IH]; intros n e L H; [discriminate|].
    assert (forall a p x, In a (args g n) -> visit_argument N g d (visit_value N g d k) p a = Ok x -> value_of M x = E a) as Arg.
    { intros a p x Ia Ex. pose proof (k_args _ _ (NK n L) a Ia) as La. pose proof (VE a La) as Va. unfold visit_argument in Ex.
      destruct (declared d a) eqn:Da; [injection Ex as <-; exact Va|].
      assert (forall y, visit_value N g d k a = Ok y -> value_of M y = E a) as Hy.
      { intros y Ey. symmetry. apply Va. now apply IH. }
      destruct p as [q|]; [|now apply Hy]. destruct (_ <=? q); [|now apply Hy].
      binv Ex. injection Ex as <-. cbn. now apply Hy. }
    assert (forall l p r, (forall a, In a l -> In a (args g n)) -> mapM (visit_argument N g d (visit_value N g d k) p) l = Ok r ->
              map (value_of M) r = map E l) as Args.
    { intros l p r Hl G. apply mapM_Forall2 in G. induction G as [|a b l' r' H1 H2 IH2]; cbn; [reflexivity|]. f_equal.
      - apply (Arg a p); [apply Hl; now left|assumption].
      - apply IH2. intros a' I'. apply Hl. now right. }
    pose proof (k_sum _ _ (NK n L)) as KS.
    cbn [visit_value] in H.
    destruct (op_of g n) as [ |f|f|t|r| | |t| |i| |l| | |s| |u s] eqn:En; try discriminate.
    - binv H. injection H as <-. pose proof (Args (args g n) (Some addition) x (fun a G => G) E0) as A.
      rewrite <- A. destruct x as [|x0 xs].
      + exfalso. destruct (args g n) as [|a l]; [cbn in KS; lia|discriminate A].
      + reflexivity.
    - binv H. injection H as <-. pose proof (Args (args g n) None x (fun a G => G) E0) as A. rewrite <- A.
      cbn. unfold float_scalar. destruct (map (value_of M) x); reflexivity.
    - binv H. injection H as <-. pose proof (Args (args g n) None x (fun a G => G) E0) as A. rewrite <- A.
      cbn. destruct (map (value_of M) x); reflexivity.
    - destruct (args g n) as [|a [|? ?]]; try discriminate. binv H. injection H as <-. cbn.
      now rewrite (Arg a None x (or_introl eq_refl) E0).
    - destruct (args g n) as [|a [|b [|? ?]]]; try discriminate. binv H. binv H. injection H as <-. cbn.
      now rewrite (Arg a None x (or_introl eq_refl) E0), (Arg b None x0 (or_intror (or_introl eq_refl)) E1).
    - destruct (args g n) as [|c [|a [|b [|? ?]]]]; try discriminate. binv H. binv H. binv H. injection H as <-. cbn.
      now rewrite (Arg c _ x (or_introl eq_refl) E0), (Arg a _ x0 (or_intror (or_introl eq_refl)) E1), (Arg b _ x1 (or_intror (or_intror (or_introl eq_refl))) E2).
    - destruct (args g n) as [|a [|? ?]]; try discriminate. cbn. now rewrite (Arg a None e (or_introl eq_refl) H).
    - destruct (args g n) as [|a [|b [|? ?]]]; try discriminate. binv H. binv H. injection H as <-. cbn.
      now rewrite (Arg a _ x (or_introl eq_refl) E0), (Arg b _ x0 (or_intror (or_introl eq_refl)) E1).
    - destruct KS.
    - assert (visit_load N l = Ok e) as Hl by now destruct (args g n).
      cbn. apply load_means in Hl. now destruct (map E (args g n)).
    - destruct (2 <=? length (args g n)); [|discriminate].
      binv H. injection H as <-. pose proof (Args (args g n) (Some multiplication) x (fun a G => G) E0) as A.
      rewrite <- A. destruct x as [|x0 xs].
      + exfalso. destruct (args g n) as [|a l]; [cbn in KS; lia|discriminate A].
      + reflexivity.
    - destruct (args g n) as [|a [|? ?]]; try discriminate. binv H. injection H as <-. cbn.
      now rewrite (Arg a _ x (or_introl eq_refl) E0).
  Qed.
  Corollary visit_value_means k n e : n < g_next g -> declared d n = false -> visit_value N g d k n = Ok e -> value_of M e = E n.
  Proof. intros L D H. pose proof (VE n L) as Vn. rewrite D in Vn. symmetry. apply Vn. now apply (visit_means k). Qed.
  End Means.

  Hypothesis OK : names_ok N.

  Lemma access_fits seq : forall a, Forall access_ok seq -> fits ftext a -> object a = true ->
    fits ftext (fold_left access_field seq a).
  Proof.
    induction seq as [|x seq IH]; intros a H F Ob; cbn; [assumption|].
    apply Forall_cons_iff in H as [Hx H]. apply IH; auto; destruct x; cbn in *; auto; now constructor.
  Qed.
  Lemma load_fits l e : load_ok ftext l -> visit_load N l = Ok e -> fits ftext e.
  Proof.
    destruct l as [z|n dd|b|c|b|v|a i|a]; cbn; intros K E; try (injection E as <-).
    - now constructor.
    - destruct K as (s & Nm & T). now apply (fit_float _ _ s).
    - destruct K as (s & Nm & T). now apply (fit_float _ _ s).
    - constructor.
    - constructor.
    - constructor. apply (n_var_ok _ OK).
    - destruct (n_args N a) as [[s t]|] eqn:Ea; [|discriminate]. destruct (n_arg_ok _ OK _ _ _ Ea) as [Is Ht].
      unfold read_argument in E. destruct t as [|rows cols|elems].
      + destruct (i =? 0); [|discriminate]. injection E as <-. now constructor.
      + destruct (i <? _); [|discriminate]. injection E as <-. constructor; [now constructor|reflexivity].
      + destruct (nth_error elems i) as [seq|] eqn:En; [|discriminate]. injection E as <-.
        apply access_fits; [|now constructor|reflexivity]. rewrite Forall_forall in Ht. apply Ht. now apply nth_error_In in En.
    - destruct (n_args N a) as [[s t]|] eqn:Ea; [|discriminate]. destruct (n_arg_ok _ OK _ _ _ Ea) as [Is Ht].
      injection E as <-. now constructor.
  Qed.

  Hypothesis KO : forall v, v < g_next g -> printable ftext g d v.

  Lemma arity_two n : n < g_next g -> match op_of g n with OAdd | OMul => 2 <= length (args g n) | _ => True end.
  Proof. intros L. pose proof (k_sum _ _ (NK n L)) as K. destruct (op_of g n); auto. Qed.

  (** An operand: how tight its text is, in terms of its operation. *)
  Lemma argument_level k p a x : a < g_next g -> visit_argument N g d (visit_value N g d k) p a = Ok x ->
    (declared d a = true -> level x = 8 /\ minus x = false) /\
    (declared d a = false -> (exists q, p = Some q /\ operation_precedence (op_of g a) <= q /\ level x = 8 /\ minus x = false) \/
       ((forall q, p = Some q -> q < operation_precedence (op_of g a)) /\ visit_value N g d k a = Ok x)).
  Proof.
    unfold visit_argument. intros L E. destruct (declared d a).
    - injection E as <-. split; [auto|discriminate].
    - split; [discriminate|]. intros _. destruct p as [q|].
      + destruct (Nat.leb_spec (operation_precedence (op_of g a)) q) as [Lq|Lq].
        * binv E. injection E as <-. left. exists q. auto.
        * right. split; [|assumption]. now intros q' [= <-].
      + right. split; [discriminate|assumption].
  Qed.
  Lemma argument_tight k n a p x first : n < g_next g -> a < g_next g ->
    (declared d a = false -> operand_ok (op_of g n) first (op_of g a) = true) ->
    visit_argument N g d (visit_value N g d k) p a = Ok x ->
    match op_of g n with
    | OAdd => p = Some addition -> (if first then 5 else 6) <= level x
    | OMul | ODiv => p = Some multiplication -> 7 <= level x
    | ONeg => p = Some multiplication -> 7 <= level x /\ minus x = false
    | OCompare _ => 5 <= level x
    | OCallStd F_signum => 5 <= level x
    | OCond => p = Some ternary -> 1 <= level x
    | _ => True
    end.
  Proof.
    intros Ln La Ko E. destruct (argument_level k p a x La E) as [D1 D2].
    destruct (declared d a) eqn:Da.
    - destruct (D1 eq_refl) as [L Mi]. destruct (op_of g n); auto; try (intros; lia); try (destruct f; auto; lia); try (destruct first; intros; lia); try (intros _; split; [lia|assumption]).
    - specialize (Ko eq_refl). destruct (D2 eq_refl) as [(q & Eq & _ & L & Mi)|[Pq Ev]].
      + destruct (op_of g n); auto; try (intros; lia); try (destruct f; auto; lia); try (destruct first; intros; lia); try (intros _; split; [lia|assumption]).
      + destruct (visit_level k a x (arity_two a La) Ev) as [Lx Mx].
        assert (forall i, op_of g a <> OGet i) as NG.
        { intros i Ei. pose proof (k_sum _ _ (NK a La)) as K. now rewrite Ei in K. }
        destruct (op_of g n) as [ |f|f|t|r| | |t| |i| |l| | |s| |u s] eqn:En; auto.
        * intros ->. specialize (Pq addition eq_refl). unfold addition in Pq. cbn in Ko.
          destruct (op_of g a) as [ |f|f|t|r| | |t| |i| |l| | |s| |u s] eqn:Eo; cbn in Ko, Pq, Lx; cbv [addition multiplication relational ternary prec_none] in Pq; try discriminate; try (destruct first; lia).
          -- destruct f; cbn in *; try (destruct first; lia).
          -- now destruct (NG i).
          -- destruct l; try (destruct first; lia). destruct (z <? 0)%Z; destruct first; lia.
        * destruct f; auto. cbn in Ko.
          destruct (op_of g a) as [ |f|f|t|r| | |t| |i| |l| | |s| |u s] eqn:Eo; cbn in Ko, Lx; try discriminate; try lia.
          -- destruct f; lia.
          -- now destruct (NG i).
          -- destruct l; try lia. destruct (z <? 0)%Z; lia.
        * cbn in Ko.
          destruct (op_of g a) as [ |f|f|t|r'| | |t| |i| |l| | |s| |u s] eqn:Eo; cbn in Ko, Lx; try discriminate; try lia.
          -- destruct f; lia.
          -- now destruct (NG i).
          -- destruct l; try lia. destruct (z <? 0)%Z; lia.
        * intros ->. specialize (Pq ternary eq_refl). unfold ternary in Pq. cbn in Ko.
          destruct (op_of g a) as [ |f|f|t|r'| | |t| |i| |l| | |s| |u s] eqn:Eo; cbn in Ko, Lx, Pq; cbv [addition multiplication relational ternary prec_none] in Pq; try discriminate; try lia.
          -- destruct f; lia.
          -- now destruct (NG i).
          -- destruct l; try lia. destruct (z <? 0)%Z; lia.
        * intros ->. specialize (Pq multiplication eq_refl). unfold multiplication in Pq. cbn in Ko.
          destruct (op_of g a) as [ |f|f|t|r'| | |t| |i| |l| | |s| |u s] eqn:Eo; cbn in Ko, Lx, Pq; cbv [addition multiplication relational ternary prec_none] in Pq; try discriminate; try lia.
          -- destruct f; lia || discriminate.
          -- now destruct (NG i).
          -- destruct l; try lia. destruct (z <? 0)%Z; lia.
        * intros ->. specialize (Pq multiplication eq_refl). unfold multiplication in Pq. cbn in Ko.
          destruct (op_of g a) as [ |f|f|t|r'| | |t| |i| |l| | |s| |u s] eqn:Eo; cbn in Ko, Lx, Pq; cbv [addition multiplication relational ternary prec_none] in Pq; try discriminate; try lia.
          -- destruct f; lia || discriminate.
          -- now destruct (NG i).
          -- destruct l; try lia. destruct (z <? 0)%Z; lia.
        * intros ->. specialize (Pq multiplication eq_refl). unfold multiplication in Pq.
          cbn [operand_ok] in Ko. apply andb_true_iff in Ko as [Ko K5]. apply andb_true_iff in Ko as [Ko K4]. apply andb_true_iff in Ko as [Ko K3].
          apply andb_true_iff in Ko as [K1 K2]. apply negb_true_iff in K1, K2, K3, K4, K5. split.
          -- destruct (op_of g a) as [ |f|f|t|r'| | |t| |i| |l| | |s| |u s] eqn:Eo; cbn in *; cbv [addition multiplication relational ternary prec_none] in Pq; try discriminate; try lia.
             ++ destruct f; lia || discriminate.
             ++ now destruct (NG i).
             ++ destruct l; try lia. rewrite K5 in Lx. lia.
          -- rewrite Mx by assumption. now rewrite K4, K5.
  Qed.

  Theorem visit_fits : forall k n e, n < g_next g -> visit_value N g d k n = Ok e -> fits ftext e.
  Proof.
    induction k as [|k IH]; intros n e L E; [discriminate|].
    assert (forall a p x, In a (args g n) -> visit_argument N g d (visit_value N g d k) p a = Ok x -> fits ftext x) as Arg.
    { intros a p x Ia Ex. pose proof (k_args _ _ (NK n L) a Ia) as La. unfold visit_argument in Ex.
      destruct (declared d a); [injection Ex as <-; constructor; apply variable_identifier|].
      destruct p as [q|]; [|now apply (IH a)]. destruct (_ <=? q); [|now apply (IH a)].
      binv Ex. injection Ex as <-. constructor. now apply (IH a). }
    assert (forall l p r, (forall a, In a l -> In a (args g n)) -> mapM (visit_argument N g d (visit_value N g d k) p) l = Ok r -> Forall (fits ftext) r) as Args.
    { intros l p r Hl H. apply mapM_Forall2 in H. induction H as [|a b l' r' H1 H2 IH2]; constructor.
      - apply (Arg a p); [apply Hl; now left|assumption].
      - apply IH2. intros a' I'. apply Hl. now right. }
    pose proof (fun first a p x Ia Ko Ex => argument_tight k n a p x first L (k_args _ _ (NK n L) a Ia) Ko Ex) as Tight.
    pose proof (k_sum _ _ (NK n L)) as KS. pose proof (k_text _ _ _ _ (KO n L)) as KT.
    pose proof (k_first _ _ _ _ (KO n L)) as KF. pose proof (k_rest _ _ _ _ (KO n L)) as KR.
    cbn [visit_value] in E.
    destruct (op_of g n) as [ |f|f|t|r| | |t| |i| |l| | |s| |u s] eqn:En; try discriminate.
    - (* sum *)
      binv E. injection E as <-. pose proof (Args (args g n) (Some addition) x (fun a H => H) E0) as FA.
      destruct (args g n) as [|a [|b l]] eqn:Eg; cbn in KS; try lia. apply mapM_Forall2 in E0.
      inversion E0 as [|a0 x0 l0 x1 E1 E2]; subst a0 l0 x. clear E0. apply Forall_cons_iff in FA as [Fa FA].
      assert (Forall (fun x => 6 <= level x) x1) as T1.
      { assert (forall c, In c (b :: l) -> In c (a :: b :: l) /\ (declared d c = false -> operand_ok OAdd false (op_of g c) = true)) as Hc.
        { intros c Ic. split; [now right|]. intros Dc. exact (KR a c (b :: l) eq_refl Ic Dc). }
        remember (a :: b :: l)%list as al eqn:Eal. clear -E2 Hc Tight. revert Hc. induction E2 as [|c y l' r' H1 H2 IH2]; intros Hc; constructor.
        - destruct (Hc c (or_introl eq_refl)) as [Ic Kc]. exact (Tight false c (Some addition) y Ic Kc H1 eq_refl).
        - apply IH2. intros c' I'. apply Hc. now right. }
      pose proof (Tight true a (Some addition) x0 (or_introl eq_refl) (KF a _ eq_refl) E1 eq_refl) as T0. cbn in T0.
      destruct x1 as [|y1 ys].
      + inversion E2.
      + now constructor.
    - (* external call *)
      binv E. injection E as <-. constructor; [exact KT|]. exact (Args (args g n) None x (fun a H => H) E0).
    - (* library call *)
      binv E. injection E as <-. pose proof (mapM_Forall2 _ _ _ E0) as F2. constructor.
      + exact (Args (args g n) None x (fun a H => H) E0).
      + rewrite <- KS. symmetry. now apply Forall2_length in F2.
      + intros ->. cbn in KS. destruct (args g n) as [|a [|? ?]] eqn:Eg; try discriminate KS. inversion F2 as [|? y ? r0 H1 H2]; subst. inversion H2; subst.
        constructor; [|constructor]. exact (Tight true a None y (or_introl eq_refl) (KF a _ eq_refl) H1).
    - (* cast *)
      destruct (args g n) as [|a [|? ?]]; try discriminate. binv E. injection E as <-. constructor. exact (Arg a None x (or_introl eq_refl) E0).
    - (* comparison *)
      destruct (args g n) as [|a [|b [|? ?]]]; try discriminate. binv E. binv E. injection E as <-.
      pose proof (Tight true a None x (or_introl eq_refl) (KF a _ eq_refl) E0) as T0.
      pose proof (Tight false b None x0 (or_intror (or_introl eq_refl)) (KR a b _ eq_refl (or_introl eq_refl)) E1) as T1.
      constructor.
      + exact (Arg a None x (or_introl eq_refl) E0).
      + destruct r; cbn; lia.
      + exact (Arg b None x0 (or_intror (or_introl eq_refl)) E1).
      + destruct r; cbn; lia.
    - (* select *)
      destruct (args g n) as [|c [|a [|b [|? ?]]]]; try discriminate. binv E. binv E. binv E. injection E as <-.
      constructor.
      + exact (Arg c _ x (or_introl eq_refl) E0).
      + exact (Tight true c (Some ternary) x (or_introl eq_refl) (KF c _ eq_refl) E0 eq_refl).
      + exact (Arg a _ x0 (or_intror (or_introl eq_refl)) E1).
      + exact (Arg b _ x1 (or_intror (or_intror (or_introl eq_refl))) E2).
    - (* copy *)
      destruct (args g n) as [|a [|? ?]]; try discriminate. exact (Arg a None e (or_introl eq_refl) E).
    - (* quotient *)
      destruct (args g n) as [|a [|b [|? ?]]]; try discriminate. binv E. binv E. injection E as <-.
      pose proof (Tight true a (Some multiplication) x (or_introl eq_refl) (KF a _ eq_refl) E0 eq_refl) as T0.
      pose proof (Tight false b (Some multiplication) x0 (or_intror (or_introl eq_refl)) (KR a b _ eq_refl (or_introl eq_refl)) E1 eq_refl) as T1.
      constructor; [exact (Arg a _ x (or_introl eq_refl) E0)|lia|exact (Arg b _ x0 (or_intror (or_introl eq_refl)) E1)|lia].
    - destruct KS.
    - (* load *)
      apply (load_fits l); [exact KT|]. now destruct (args g n).
    - (* product *)
      destruct (2 <=? length (args g n)); [|discriminate].
      binv E. injection E as <-. pose proof (Args (args g n) (Some multiplication) x (fun a H => H) E0) as FA.
      destruct (args g n) as [|a [|b l]] eqn:Eg; cbn in KS; try lia. apply mapM_Forall2 in E0.
      inversion E0 as [|a0 x0 l0 x1 E1 E2]; subst a0 l0 x. clear E0. apply Forall_cons_iff in FA as [Fa FA].
      assert (Forall (fun x => 7 <= level x) x1) as T1.
      { assert (forall c, In c (b :: l) -> In c (a :: b :: l) /\ (declared d c = false -> operand_ok OMul false (op_of g c) = true)) as Hc.
        { intros c Ic. split; [now right|]. intros Dc. exact (KR a c (b :: l) eq_refl Ic Dc). }
        remember (a :: b :: l)%list as al eqn:Eal. clear -E2 Hc Tight. revert Hc. induction E2 as [|c y l' r' H1 H2 IH2]; intros Hc; constructor.
        - destruct (Hc c (or_introl eq_refl)) as [Ic Kc]. exact (Tight false c (Some multiplication) y Ic Kc H1 eq_refl).
        - apply IH2. intros c' I'. apply Hc. now right. }
      pose proof (Tight true a (Some multiplication) x0 (or_introl eq_refl) (KF a _ eq_refl) E1 eq_refl) as T0. cbn in T0.
      destruct x1 as [|y1 ys].
      + inversion E2.
      + constructor; auto. lia.
    - (* minus *)
      destruct (args g n) as [|a [|? ?]]; try discriminate. binv E. injection E as <-.
      destruct (Tight true a (Some multiplication) x (or_introl eq_refl) (KF a _ eq_refl) E0 eq_refl) as [T0 T1].
      constructor; auto. exact (Arg a _ x (or_introl eq_refl) E0).
  Qed.

End Tree.
