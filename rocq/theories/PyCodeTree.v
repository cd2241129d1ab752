(** The tree made for a value fits into the grammar of Python. *)
From Coq Require Import String Ascii List Arith ZArith Bool Lia.
From Verif Require Import Outcome NumProofs IrModel AstModel CppSpec AstSpec AstProofs AstTree PyCodeModel PyCodeSpec PyCodeProofs.
Import ListNotations.
Open Scope string_scope.
Open Scope nat_scope.

Section Tree.
  Variable T : py_target.
  Variable ftext : load_src -> string.
  Variable N : names.
  Variable g : graph.
  Variable d : list name.
  Notation lvl := (py_level T ftext).
  Notation fit := (py_fits T ftext).

  (** A bound for the level of the text of an operation. *)
  Definition lvp (o : op) : nat :=
    match o with OCompare _ | OCopy | OGet _ => 0 | OAdd => 1 | OMul | ODiv => 2 | ONeg | OLoad _ => 3 | _ => 5 end.

  Lemma access_level5 seq : forall a, lvl a = 5 -> lvl (fold_left access_field seq a) = 5.
  Proof. induction seq as [|x seq IH]; intros a L; cbn; [assumption|]. apply IH. now destruct x. Qed.
  Lemma load_level3 l e : visit_load N l = Ok e -> 3 <= lvl e.
  Proof.
    destruct l as [z|n dd|b|c|b|v|a i|a]; cbn; intros E; try (injection E as <-; cbn; lia).
    - injection E as <-. cbn. destruct (z <? 0)%Z; lia.
    - injection E as <-. cbn. destruct (bare_minus _ _); lia.
    - injection E as <-. cbn. destruct (bare_minus _ _); lia.
    - destruct (n_args N a) as [[s t]|]; [|discriminate]. unfold read_argument in E. destruct t as [|rows cols|elems].
      + destruct (i =? 0); [|discriminate]. injection E as <-. cbn. lia.
      + destruct (i <? _); [|discriminate]. injection E as <-. cbn. lia.
      + destruct (nth_error elems i) as [seq|]; [|discriminate]. injection E as <-. rewrite access_level5 by reflexivity. lia.
    - destruct (n_args N a) as [[s t]|]; [|discriminate]. injection E as <-. cbn. lia.
  Qed.
  Lemma visit_level5 k n e :
    match op_of g n with OAdd | OMul => 2 <= length (args g n) | _ => True end ->
    visit_value N g d k n = Ok e -> lvp (op_of g n) <= lvl e.
  Proof.
    destruct k as [|k]; [discriminate|]. cbn [visit_value]. intros Ar E.
    destruct (op_of g n) as [ |f|f|t|r| | |t| |i| |l| | |s| |u s] eqn:Eo; try discriminate.
    - binv E. injection E as <-. apply mapM_Forall2 in E0. apply Forall2_length in E0. rewrite E0 in Ar.
      destruct x as [|x1 [|x2 xs]]; cbn in Ar; try lia. cbn. lia.
    - binv E. injection E as <-. cbn. auto.
    - binv E. injection E as <-. cbn. auto.
    - destruct (args g n) as [|a [|? ?]]; try discriminate. binv E. injection E as <-. cbn. auto.
    - cbn. lia.
    - destruct (args g n) as [|c [|a [|b [|? ?]]]]; try discriminate. binv E. binv E. binv E. injection E as <-. cbn. auto.
    - cbn. lia.
    - destruct (args g n) as [|a [|b [|? ?]]]; try discriminate. binv E. binv E. injection E as <-. cbn. auto.
    - cbn. lia.
    - assert (visit_load N l = Ok e) as H by now destruct (args g n). exact (load_level3 l e H).
    - destruct (2 <=? length (args g n)); [|discriminate]. binv E. injection E as <-. apply mapM_Forall2 in E0. apply Forall2_length in E0. rewrite E0 in Ar.
      destruct x as [|x1 [|x2 xs]]; cbn in Ar; try lia. cbn. lia.
    - destruct (args g n) as [|a [|? ?]]; try discriminate. binv E. injection E as <-. cbn. auto.
  Qed.

  Hypothesis NK : forall v, v < g_next g -> node_ok g v.
  Hypothesis OK : py_names_ok N.

  Lemma access_fit seq : forall a, Forall py_access_ok seq -> fit a -> object a = true -> fit (fold_left access_field seq a).
  Proof.
    induction seq as [|x seq IH]; intros a H F Ob; cbn; [assumption|].
    apply Forall_cons_iff in H as [Hx H]. apply IH; auto; destruct x; cbn in *; auto; now constructor.
  Qed.
  Lemma load_fit l e : py_load_ok ftext l -> visit_load N l = Ok e -> fit e.
  Proof.
    destruct l as [z|n dd|b|c|b|v|a i|a]; cbn; intros K E; try (injection E as <-).
    - now constructor.
    - destruct K as (s & Nm & Tx). now apply (yf_float _ _ _ s).
    - destruct K as (s & Nm & Tx). now apply (yf_float _ _ _ s).
    - constructor.
    - constructor.
    - constructor. apply (yn_var _ OK).
    - destruct (n_args N a) as [[s t]|] eqn:Ea; [|discriminate]. destruct (yn_arg _ OK _ _ _ Ea) as [Is Ht].
      unfold read_argument in E. destruct t as [|rows cols|elems].
      + destruct (i =? 0); [|discriminate]. injection E as <-. now constructor.
      + destruct (i <? _); [|discriminate]. injection E as <-. constructor; [now constructor|reflexivity].
      + destruct (nth_error elems i) as [seq|] eqn:En; [|discriminate]. injection E as <-.
        apply access_fit; [|now constructor|reflexivity]. rewrite Forall_forall in Ht. apply Ht. now apply nth_error_In in En.
    - destruct (n_args N a) as [[s t]|] eqn:Ea; [|discriminate]. destruct (yn_arg _ OK _ _ _ Ea) as [Is Ht].
      injection E as <-. now constructor.
  Qed.

  Hypothesis KO : forall v, v < g_next g -> py_printable ftext g d v.

  (** Operands that are not put into parentheses hold together tightly enough. *)
  Lemma argument_tight5 k o a p x : a < g_next g ->
    (declared d a = false -> py_operand_ok o (op_of g a) = true) ->
    visit_argument N g d (visit_value N g d k) p a = Ok x ->
    match o with
    | OAdd => p = Some addition -> 2 <= lvl x
    | OMul | ODiv | ONeg => p = Some multiplication -> 3 <= lvl x
    | OCompare _ => 1 <= lvl x
    | _ => True
    end.
  Proof.
    intros La Ko E. unfold visit_argument in E. destruct (declared d a) eqn:Da.
    { injection E as <-. destruct o; auto; cbn; lia. }
    specialize (Ko eq_refl).
    assert (forall y, visit_value N g d k a = Ok y -> lvp (op_of g a) <= lvl y) as Lv.
    { intros y Ey. apply (visit_level5 k a); auto. apply (arity_two g NK a La). }
    assert (forall i, op_of g a <> OGet i) as NG.
    { intros i Ei. pose proof (k_sum _ _ (NK a La)) as K. now rewrite Ei in K. }
    destruct p as [q|].
    - destruct (Nat.leb_spec (operation_precedence (op_of g a)) q) as [Lq|Lq].
      + binv E. injection E as <-. destruct o; auto; cbn; lia.
      + specialize (Lv x E). destruct o as [ |f|f|t|r| | |t| |i| |l| | |s| |u s]; auto; try (intros [= ->]);
          destruct (op_of g a) as [ |f'|f'|t'|r'| | |t'| |i'| |l'| | |s'| |u' s'] eqn:Eo; cbn in Ko, Lv, Lq;
          cbv [addition multiplication relational ternary prec_none] in Lq; try discriminate; try lia; now destruct (NG i').
    - specialize (Lv x E). destruct o as [ |f|f|t|r| | |t| |i| |l| | |s| |u s]; auto; try discriminate.
      destruct (op_of g a) as [ |f'|f'|t'|r'| | |t'| |i'| |l'| | |s'| |u' s'] eqn:Eo; cbn in Ko, Lv; try discriminate; try lia; now destruct (NG i').
  Qed.

  Theorem visit_fit : forall k n e, n < g_next g -> visit_value N g d k n = Ok e -> fit e.
  Proof.
    induction k as [|k IH]; intros n e L E; [discriminate|].
    assert (forall a p x, In a (args g n) -> visit_argument N g d (visit_value N g d k) p a = Ok x -> fit x) as Arg.
    { intros a p x Ia Ex. pose proof (k_args _ _ (NK n L) a Ia) as La. unfold visit_argument in Ex.
      destruct (declared d a); [injection Ex as <-; constructor; apply variable_py_name|].
      destruct p as [q|]; [|now apply (IH a)]. destruct (_ <=? q); [|now apply (IH a)].
      binv Ex. injection Ex as <-. constructor. now apply (IH a). }
    pose proof (fun a p x Ia Ex => argument_tight5 k (op_of g n) a p x (k_args _ _ (NK n L) a Ia) (yk_args _ _ _ _ (KO n L) a Ia) Ex) as Tight.
    assert (forall p l r, (forall a, In a l -> In a (args g n)) -> mapM (visit_argument N g d (visit_value N g d k) p) l = Ok r ->
              Forall fit r /\ (op_of g n = OAdd -> p = Some addition -> Forall (fun x => 2 <= lvl x) r) /\
              (op_of g n = OMul -> p = Some multiplication -> Forall (fun x => 3 <= lvl x) r)) as Args.
    { intros p l r Hl H. apply mapM_Forall2 in H. induction H as [|a b l' r' H1 H2 IH2]; [repeat split; constructor|].
      destruct IH2 as (I1 & I2 & I3); [intros a' I'; apply Hl; now right|].
      pose proof (Tight a p b (Hl a (or_introl eq_refl)) H1) as Tb.
      split; [|split]; try (intros Eo Ep; rewrite Eo in Tb); constructor; auto.
      apply (Arg a p); [apply Hl; now left|assumption]. }
    pose proof (k_sum _ _ (NK n L)) as KS. pose proof (yk_text _ _ _ _ (KO n L)) as KT.
    cbn [visit_value] in E.
    destruct (op_of g n) as [ |f|f|t|r| | |t| |i| |l| | |s| |u s] eqn:En; try discriminate.
    - binv E. injection E as <-. destruct (Args (Some addition) (args g n) x (fun a H => H) E0) as (F1 & F2 & _).
      specialize (F2 eq_refl eq_refl). apply mapM_Forall2 in E0. apply Forall2_length in E0. rewrite E0 in KS.
      destruct x as [|x1 [|x2 xs]]; cbn in KS; try lia. apply Forall_cons_iff in F1 as [G1 F1]. apply Forall_cons_iff in F2 as [G2 F2].
      constructor; auto. lia.
    - binv E. injection E as <-. constructor; [exact KT|]. now destruct (Args None (args g n) x (fun a H => H) E0).
    - binv E. injection E as <-. constructor. now destruct (Args None (args g n) x (fun a H => H) E0).
    - destruct (args g n) as [|a [|? ?]]; try discriminate. binv E. injection E as <-. constructor. exact (Arg a None x (or_introl eq_refl) E0).
    - destruct (args g n) as [|a [|b [|? ?]]]; try discriminate. binv E. binv E. injection E as <-. constructor.
      + exact (Arg a None x (or_introl eq_refl) E0).
      + exact (Tight a None x (or_introl eq_refl) E0).
      + exact (Arg b None x0 (or_intror (or_introl eq_refl)) E1).
      + exact (Tight b None x0 (or_intror (or_introl eq_refl)) E1).
    - destruct (args g n) as [|c [|a [|b [|? ?]]]]; try discriminate. binv E. binv E. binv E. injection E as <-. constructor.
      + exact (Arg c _ x (or_introl eq_refl) E0).
      + exact (Arg a _ x0 (or_intror (or_introl eq_refl)) E1).
      + exact (Arg b _ x1 (or_intror (or_intror (or_introl eq_refl))) E2).
    - destruct (args g n) as [|a [|? ?]]; try discriminate. exact (Arg a None e (or_introl eq_refl) E).
    - destruct (args g n) as [|a [|b [|? ?]]]; try discriminate. binv E. binv E. injection E as <-.
      pose proof (Tight a (Some multiplication) x (or_introl eq_refl) E0 eq_refl) as T0.
      pose proof (Tight b (Some multiplication) x0 (or_intror (or_introl eq_refl)) E1 eq_refl) as T1.
      constructor; [exact (Arg a _ x (or_introl eq_refl) E0)|lia|exact (Arg b _ x0 (or_intror (or_introl eq_refl)) E1)|lia].
    - destruct KS.
    - apply (load_fit l); [exact KT|]. now destruct (args g n).
    - destruct (2 <=? length (args g n)); [|discriminate]. binv E. injection E as <-.
      destruct (Args (Some multiplication) (args g n) x (fun a H => H) E0) as (F1 & _ & F2).
      specialize (F2 eq_refl eq_refl). apply mapM_Forall2 in E0. apply Forall2_length in E0. rewrite E0 in KS.
      destruct x as [|x1 [|x2 xs]]; cbn in KS; try lia. apply Forall_cons_iff in F1 as [G1 F1]. apply Forall_cons_iff in F2 as [G2 F2].
      constructor; auto. lia.
    - destruct (args g n) as [|a [|? ?]]; try discriminate. binv E. injection E as <-.
      constructor; [exact (Arg a _ x (or_introl eq_refl) E0)|]. exact (Tight a (Some multiplication) x (or_introl eq_refl) E0 eq_refl).
  Qed.
End Tree.
