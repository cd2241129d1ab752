(** The tree made for a value fits into the grammar of Rust. *)
From Coq Require Import String Ascii List Arith ZArith Bool Lia.
From Verif Require Import Outcome NumProofs IrModel AstModel CppSpec AstSpec AstProofs AstTree RustSpec RustModel RustCodeSpec RustProofs.
Import ListNotations.
Open Scope string_scope.
Open Scope nat_scope.

Lemma variable_rs_name w n : rs_name (variable_name w n).
Proof.
  destruct (variable_identifier w n) as (L & A & _). split; [exact L|]. split; [exact A|].
  assert (forall t, String.eqb t "irtual" = false -> is_in (String "v" t) rs_keywords = false) as H by (intros t H; cbn in *; now rewrite H).
  apply (H (zeros (w - String.length (dec_nat n)) ++ dec_nat n)).
  destruct (w - String.length (dec_nat n)) as [|k]; [|reflexivity]. cbn [zeros append].
  pose proof (rnat_number n) as Dn. destruct (dec_nat n) as [|c t]; [reflexivity|]. destruct Dn as [Dc _].
  destruct (String.eqb_spec (String c t) "irtual") as [[= -> ->]|]; [discriminate|reflexivity].
Qed.

Section Tree.
  Variable ftext : load_src -> string.
  Variable borrows : string -> nat -> bool.
  Variable N : names.
  Variable g : graph.
  Variable d : list name.
  Notation lvl := (rs_level ftext).
  Notation fit := (rs_fits ftext borrows).

  (** A bound for the level of the text of an operation. *)
  Definition lvr (n : name) : nat :=
    match op_of g n with
    | OCompare _ | OCopy | OGet _ => 0
    | OAdd | OCallStd F_signum => 1
    | OMul | ODiv => 2
    | OCast _ | OCallStd F_floor => 3
    | OCallExt _ => if float_scalar (ty_of g n) then 3 else 5
    | ONeg | OLoad _ => 4
    | _ => 5
    end.

  Lemma raccess_level5 seq : forall a, lvl a = 5 -> lvl (fold_left access_field seq a) = 5.
  Proof. induction seq as [|x seq IH]; intros a L; cbn; [assumption|]. apply IH. now destruct x. Qed.
  Lemma access_ends seq : forall a, ends_type a = false -> ends_type (fold_left access_field seq a) = false.
  Proof. induction seq as [|x seq IH]; intros a L; cbn; [assumption|]. apply IH. now destruct x. Qed.
  Lemma rload_level l e : visit_load N l = Ok e -> 4 <= lvl e /\ ends_type e = false.
  Proof.
    destruct l as [z|n dd|b|c|b|v|a i|a]; cbn; intros E; try (injection E as <-; cbn; split; [lia|reflexivity]).
    - injection E as <-. cbn. destruct (z <? 0)%Z; split; auto.
    - injection E as <-. cbn. destruct (minus_sign _); split; auto.
    - injection E as <-. cbn. destruct (minus_sign _); split; auto.
    - destruct (n_args N a) as [[s t]|]; [|discriminate]. unfold read_argument in E. destruct t as [|rows cols|elems].
      + destruct (i =? 0); [|discriminate]. injection E as <-. cbn. split; auto.
      + destruct (i <? _); [|discriminate]. injection E as <-. cbn. split; auto.
      + destruct (nth_error elems i) as [seq|]; [|discriminate]. injection E as <-. rewrite raccess_level5 by reflexivity. split; [lia|now apply access_ends].
    - destruct (n_args N a) as [[s t]|]; [|discriminate]. injection E as <-. cbn. split; auto.
  Qed.
  Lemma rvisit_level k n e :
    match op_of g n with OAdd | OMul => 2 <= length (args g n) | _ => True end ->
    visit_value N g d k n = Ok e -> lvr n <= lvl e.
  Proof.
    destruct k as [|k]; [discriminate|]. cbn [visit_value]. unfold lvr. intros Ar E.
    destruct (op_of g n) as [ |f|f|t|r| | |t| |i| |l| | |s| |u s] eqn:Eo; try discriminate.
    - binv E. injection E as <-. apply mapM_Forall2 in E0. apply Forall2_length in E0. rewrite E0 in Ar.
      destruct x as [|x1 [|x2 xs]]; cbn in Ar; try lia. cbn. lia.
    - binv E. injection E as <-. cbn. destruct (float_scalar _); auto.
    - binv E. injection E as <-. destruct f; cbn; auto.
    - destruct (args g n) as [|a [|? ?]]; try discriminate. binv E. injection E as <-. cbn. auto.
    - cbn. lia.
    - destruct (args g n) as [|c [|a [|b [|? ?]]]]; try discriminate. binv E. binv E. binv E. injection E as <-. cbn. auto.
    - cbn. lia.
    - destruct (args g n) as [|a [|b [|? ?]]]; try discriminate. binv E. binv E. injection E as <-. cbn. auto.
    - cbn. lia.
    - assert (visit_load N l = Ok e) as H by now destruct (args g n). apply (rload_level l e H).
    - destruct (2 <=? length (args g n)); [|discriminate]. binv E. injection E as <-. apply mapM_Forall2 in E0. apply Forall2_length in E0. rewrite E0 in Ar.
      destruct x as [|x1 [|x2 xs]]; cbn in Ar; try lia. cbn. lia.
    - destruct (args g n) as [|a [|? ?]]; try discriminate. binv E. injection E as <-. cbn. auto.
  Qed.

  Hypothesis NK : forall v, v < g_next g -> node_ok g v.
  Hypothesis OK : rs_names_ok N.

  Lemma raccess_fit seq : forall a, Forall rs_access_ok seq -> fit a -> rs_object a = true -> fit (fold_left access_field seq a).
  Proof.
    induction seq as [|x seq IH]; intros a H F Ob; cbn; [assumption|].
    apply Forall_cons_iff in H as [Hx H]. apply IH; auto; destruct x; cbn in *; auto; now constructor.
  Qed.
  Lemma rload_fit l e : rs_load_ok ftext l -> visit_load N l = Ok e -> fit e.
  Proof.
    destruct l as [z|n dd|b|c|b|v|a i|a]; cbn; intros K E; try (injection E as <-).
    - now constructor.
    - destruct K as (s & Nm & Tx). now apply (rf_float _ _ _ s).
    - destruct K as (s & Nm & Tx). now apply (rf_float _ _ _ s).
    - constructor.
    - constructor.
    - constructor. apply (rn_var _ OK).
    - destruct (n_args N a) as [[s t]|] eqn:Ea; [|discriminate]. destruct (rn_arg _ OK _ _ _ Ea) as [Is Ht].
      unfold read_argument in E. destruct t as [|rows cols|elems].
      + destruct (i =? 0); [|discriminate]. injection E as <-. now constructor.
      + destruct (i <? _); [|discriminate]. injection E as <-. constructor; [now constructor|reflexivity].
      + destruct (nth_error elems i) as [seq|] eqn:En; [|discriminate]. injection E as <-.
        apply raccess_fit; [|now constructor|reflexivity]. rewrite Forall_forall in Ht. apply Ht. now apply nth_error_In in En.
    - destruct (n_args N a) as [[s t]|] eqn:Ea; [|discriminate]. destruct (rn_arg _ OK _ _ _ Ea) as [Is Ht].
      injection E as <-. now constructor.
  Qed.

  Hypothesis KO : forall v, v < g_next g -> rs_printable ftext borrows g d v.

  Definition operand_rok (n : name) (first : bool) (a : name) : Prop :=
    declared d a = false -> rs_operand_ok g (op_of g n) first a = true.
  (** Operands that are not put into parentheses hold together tightly enough. *)
  Lemma rargument_tight k n first a p x : a < g_next g -> operand_rok n first a ->
    visit_argument N g d (visit_value N g d k) p a = Ok x ->
    match op_of g n with
    | OAdd => p = Some addition -> (if first then 1 else 2) <= lvl x
    | OMul | ODiv => p = Some multiplication -> 3 <= lvl x
    | ONeg => p = Some multiplication -> 4 <= lvl x
    | OCallStd F_signum => 1 <= lvl x
    | _ => True
    end.
  Proof.
    intros La Ko E. unfold visit_argument in E. destruct (declared d a) eqn:Da.
    { injection E as <-. destruct (op_of g n) as [ |f|f|t|r| | |t| |i| |l| | |s| |u s]; auto; try (cbn; destruct first; lia). destruct f; cbn; auto; lia. }
    specialize (Ko Da).
    assert (forall y, visit_value N g d k a = Ok y -> lvr a <= lvl y) as Lv.
    { intros y Ey. apply (rvisit_level k a); auto. apply (arity_two g NK a La). }
    assert (forall i, op_of g a <> OGet i) as NG.
    { intros i Ei. pose proof (k_sum _ _ (NK a La)) as K. now rewrite Ei in K. }
    assert (forall q, p = Some q -> operation_precedence (op_of g a) <= q -> 5 <= lvl x) as Par.
    { intros q -> Lq. apply Nat.leb_le in Lq. rewrite Lq in E. binv E. injection E as <-. cbn. lia. }
    assert ((exists q, p = Some q /\ operation_precedence (op_of g a) <= q) \/
            (forall q, p = Some q -> q < operation_precedence (op_of g a)) /\ lvr a <= lvl x) as [(q & Ep & Lq)|(Hq & Lx)].
    { destruct p as [q|]; [|right; split; [discriminate|now apply Lv]].
      destruct (Nat.leb_spec (operation_precedence (op_of g a)) q) as [Lq|Lq]; [left; now exists q|].
      right. split; [now intros ? [= <-]|now apply Lv]. }
    - pose proof (Par q Ep Lq). destruct (op_of g n) as [ |f|f|t|r| | |t| |i| |l| | |s| |u s]; auto; try (intros _; lia).
      + intros _. destruct first; lia.
      + destruct f; auto; lia.
    - clear Par Lv E. unfold rs_operand_ok, float_ext in Ko. unfold lvr in Lx.
      destruct (op_of g n) as [ |f|f|t|r| | |t| |i| |l| | |s| |u s]; auto.
      + intros Ep. specialize (Hq _ Ep). destruct (op_of g a) as [ |f'|f'|t'|r'| | |t'| |i'| |l'| | |s'| |u' s'] eqn:Eo; cbn in *;
          cbv [addition multiplication relational ternary prec_none] in Hq; try discriminate; try (destruct first; lia); try now destruct (NG i').
        * destruct (float_scalar _); destruct first; lia.
        * destruct f'; cbn in *; destruct first; try lia; try discriminate.
      + destruct f; auto. destruct (op_of g a) as [ |f'|f'|t'|r'| | |t'| |i'| |l'| | |s'| |u' s'] eqn:Eo; cbn in *; try discriminate; try lia; try now destruct (NG i').
        * destruct (float_scalar _); lia.
        * destruct f'; lia.
      + intros Ep. specialize (Hq _ Ep). destruct (op_of g a) as [ |f'|f'|t'|r'| | |t'| |i'| |l'| | |s'| |u' s'] eqn:Eo; cbn in *;
          cbv [addition multiplication relational ternary prec_none] in Hq; try discriminate; try lia; try now destruct (NG i').
        * destruct (float_scalar _); lia.
        * destruct f'; cbn in *; try lia; try discriminate.
      + intros Ep. specialize (Hq _ Ep). destruct (op_of g a) as [ |f'|f'|t'|r'| | |t'| |i'| |l'| | |s'| |u' s'] eqn:Eo; cbn in *;
          cbv [addition multiplication relational ternary prec_none] in Hq; try discriminate; try lia; try now destruct (NG i').
        * destruct (float_scalar _); lia.
        * destruct f'; cbn in *; try lia; try discriminate.
      + intros Ep. specialize (Hq _ Ep). destruct (op_of g a) as [ |f'|f'|t'|r'| | |t'| |i'| |l'| | |s'| |u' s'] eqn:Eo; cbn in *;
          cbv [addition multiplication relational ternary prec_none] in Hq; try discriminate; try lia; try now destruct (NG i').
        * destruct (float_scalar _); [discriminate|lia].
        * destruct f'; cbn in *; try lia; try discriminate.
  Qed.

  Lemma last_of {A} (l : list A) a x : last (l ++ [a])%list x = a.
  Proof. induction l as [|b l IH]; [reflexivity|]. cbn. destruct (l ++ [a])%list eqn:E; [now destruct l|exact IH]. Qed.
  Lemma mapM_last {A B} (f : A -> outcome B) l a r : mapM f (l ++ [a])%list = Ok r -> exists q y, r = (q ++ [y])%list /\ f a = Ok y.
  Proof.
    revert r. induction l as [|b l IH]; intros r E; cbn in E.
    - binv E. injection E as <-. now exists [], x.
    - binv E. binv E. injection E as <-. destruct (IH _ E1) as (q & y & -> & Ey). now exists (x :: q)%list, y.
  Qed.
  Lemma list_last {A} (l : list A) : l <> [] -> exists q a, l = (q ++ [a])%list.
  Proof. intros H. destruct (exists_last H) as (q & a & ->). now exists q, a. Qed.

  (** The texts that end with a type are those of the operations in [type_last]. *)
  Lemma operand_declared_ok n a l : n < g_next g -> args g n = (l ++ [a])%list -> l <> [] -> operand_rok n false a.
  Proof.
    intros L Ea Nl Da. destruct l as [|b l]; [congruence|]. cbn in Ea. apply (rk_rest _ _ _ _ _ (KO n L) b a (l ++ [a])%list); auto.
    apply in_or_app. right. now left.
  Qed.
  Lemma ends_last : forall k n e, n < g_next g -> op_of g n <> OCopy -> visit_value N g d k n = Ok e -> ends_type e = true -> type_last g d n.
  Proof.
    induction k as [|k IH]; intros n e L NC E T; [discriminate|].
    pose proof (k_sum _ _ (NK n L)) as KS.
    assert (forall l a p x, args g n = (l ++ [a])%list -> l <> [] -> p = operation_precedence (op_of g n) ->
              match op_of g n with OAdd | OMul | ODiv => True | _ => False end ->
              visit_argument N g d (visit_value N g d k) (Some p) a = Ok x -> ends_type x = true -> type_last g d n) as Chain.
    { intros l a p x Ea Nl -> Op Ex Tx. pose proof (operand_declared_ok n a l L Ea Nl) as Ok. unfold visit_argument in Ex. destruct (declared d a) eqn:Da; [injection Ex as <-; discriminate|].
      destruct (Nat.leb_spec (operation_precedence (op_of g a)) (operation_precedence (op_of g n))) as [Lq|Lq].
      { binv Ex. injection Ex as <-. discriminate. }
      apply (tl_chain _ _ n l a); auto. apply (IH a x); auto.
      - apply (k_args _ _ (NK n L)). rewrite Ea. apply in_or_app. right. now left.
      - specialize (Ok Da). intros Ec. unfold rs_operand_ok in Ok. rewrite Ec in Ok. destruct (op_of g n); cbn in Ok; try contradiction; discriminate. }
    cbn [visit_value] in E.
    destruct (op_of g n) as [ |f|f|t|r| | |t| |i| |l| | |s| |u s] eqn:En; try discriminate.
    - binv E. injection E as <-. destruct (list_last (args g n)) as (q & a & Ea); [intros Ea; rewrite Ea in KS; cbn in KS; lia|].
      rewrite Ea in E0. destruct (mapM_last _ _ _ _ E0) as (q' & y & -> & Ey). cbn in T. rewrite map_app in T. cbn [map] in T. rewrite last_of in T.
      apply (Chain q a addition y); auto. rewrite Ea, app_length in KS. cbn in KS. destruct q; [cbn in KS; lia|discriminate].
    - binv E. injection E as <-. apply tl_float. unfold float_ext. rewrite En. cbn in T. now destruct (float_scalar _).
    - binv E. injection E as <-. destruct f; try discriminate; ((apply tl_sign; rewrite En; reflexivity) || (apply tl_cast; rewrite En; reflexivity)).
    - apply tl_cast. now rewrite En.
    - destruct (args g n) as [|a [|b [|? ?]]]; try discriminate. binv E. binv E. injection E as <-. discriminate.
    - destruct (args g n) as [|c [|a [|b [|? ?]]]]; try discriminate. binv E. binv E. binv E. injection E as <-. discriminate.
    - congruence.
    - destruct (args g n) as [|a [|b [|? ?]]] eqn:Ea; try discriminate. binv E. binv E. injection E as <-.
      apply (Chain [a] b multiplication x0); auto; discriminate.
    - destruct KS.
    - assert (visit_load N l = Ok e) as H by now destruct (args g n). destruct (rload_level l e H) as [_ H']. congruence.
    - destruct (2 <=? length (args g n)); [|discriminate]. binv E. injection E as <-. destruct (list_last (args g n)) as (q & a & Ea); [intros Ea; rewrite Ea in KS; cbn in KS; lia|].
      rewrite Ea in E0. destruct (mapM_last _ _ _ _ E0) as (q' & y & -> & Ey). cbn in T. rewrite map_app in T. cbn [map] in T. rewrite last_of in T.
      apply (Chain q a multiplication y); auto. rewrite Ea, app_length in KS. cbn in KS. destruct q; [cbn in KS; lia|discriminate].
    - destruct (args g n) as [|a [|? ?]]; try discriminate. binv E. injection E as <-. discriminate.
  Qed.

  Theorem rvisit_fit : forall k n e, n < g_next g -> visit_value N g d k n = Ok e -> fit e.
  Proof.
    induction k as [|k IH]; intros n e L E; [discriminate|].
    assert (forall a p x, In a (args g n) -> visit_argument N g d (visit_value N g d k) p a = Ok x -> fit x) as Arg.
    { intros a p x Ia Ex. pose proof (k_args _ _ (NK n L) a Ia) as La. unfold visit_argument in Ex.
      destruct (declared d a); [injection Ex as <-; constructor; apply variable_rs_name|].
      destruct p as [q|]; [|now apply (IH a)]. destruct (_ <=? q); [|now apply (IH a)].
      binv Ex. injection Ex as <-. constructor. now apply (IH a). }
    assert (forall a r, args g n = (a :: r)%list -> operand_rok n true a) as O1 by (intros a r Ea Da; exact (rk_first _ _ _ _ _ (KO n L) a r Ea Da)).
    assert (forall a b r, args g n = (a :: r)%list -> In b r -> operand_rok n false b) as O2 by (intros a b r Ea Ib Db; exact (rk_rest _ _ _ _ _ (KO n L) a b r Ea Ib Db)).
    pose proof (fun first a p x Ia Ko Ex => rargument_tight k n first a p x (k_args _ _ (NK n L) a Ia) Ko Ex) as Tight.
    assert (forall p l r, (forall a, In a l -> In a (args g n)) -> mapM (visit_argument N g d (visit_value N g d k) p) l = Ok r -> Forall fit r) as Args.
    { intros p l r Hl H. apply mapM_Forall2 in H. induction H as [|a b l' r' H1 H2 IH2]; constructor; [|apply IH2; intros a' I'; apply Hl; now right].
      apply (Arg a p); [apply Hl; now left|assumption]. }
    assert (forall p l r, (forall a, In a l -> In a (args g n) /\ operand_rok n false a) -> mapM (visit_argument N g d (visit_value N g d k) p) l = Ok r ->
              (op_of g n = OAdd -> p = Some addition -> Forall (fun x => 2 <= lvl x) r) /\
              (op_of g n = OMul -> p = Some multiplication -> Forall (fun x => 3 <= lvl x) r)) as Rest.
    { intros p l r Hl H. apply mapM_Forall2 in H. induction H as [|a b l' r' H1 H2 IH2]; [split; constructor|].
      destruct IH2 as (I1 & I2); [intros a' I'; apply Hl; now right|]. destruct (Hl a (or_introl eq_refl)) as [Ia Ka].
      pose proof (Tight false a p b Ia Ka H1) as Tb.
      split; intros Eo Ep; rewrite Eo in Tb; constructor; auto. }
    pose proof (k_sum _ _ (NK n L)) as KS. pose proof (rk_text _ _ _ _ _ (KO n L)) as KT.
    cbn [visit_value] in E.
    destruct (op_of g n) as [ |f|f|t|r| | |t| |i| |l| | |s| |u s] eqn:En; try discriminate.
    - binv E. injection E as <-. pose proof (Args (Some addition) (args g n) x (fun a H => H) E0) as F1.
      destruct (args g n) as [|a l] eqn:Ea; [cbn in KS; lia|]. cbn in E0. binv E0. binv E0. injection E0 as <-.
      destruct (Rest (Some addition) l x1) as (F2 & _); [|assumption|].
      { intros b Ib. split; [now right|]. exact (O2 a b l eq_refl Ib). }
      specialize (F2 eq_refl eq_refl). pose proof (Tight true a _ x0 (or_introl eq_refl) (O1 a l eq_refl) ltac:(eassumption) eq_refl) as F0.
      apply mapM_Forall2, Forall2_length in E1. destruct x1 as [|b xs]; [cbn in *; lia|]. apply Forall_cons_iff in F1 as [G1 F1]. now constructor.
    - binv E. injection E as <-. constructor; [exact KT|now apply (Args None (args g n))|].
      intros i b Ib Bo. apply mapM_Forall2 in E0.
      assert (exists a, nth_error (args g n) i = Some a /\ visit_argument N g d (visit_value N g d k) None a = Ok b) as (a & Ia & Va).
      { clear -E0 Ib. revert i Ib. induction E0 as [|a y l r H _ IH]; intros [|i] Ib; cbn in *; try discriminate; eauto. injection Ib as <-. eauto. }
      pose proof (k_args _ _ (NK n L) a (nth_error_In _ _ Ia)) as La.
      unfold visit_argument in Va. destruct (declared d a) eqn:Da; [injection Va as <-; cbn; lia|].
      pose proof (rk_borrow _ _ _ _ _ (KO n L) f i a En Bo Ia Da) as RB.
      pose proof (rvisit_level k a b (arity_two g NK a La) Va) as LL. unfold lvr, float_ext in *.
      destruct (op_of g a); try contradiction; try lia. rewrite RB in LL. lia.
    - binv E. injection E as <-. constructor; [now apply (Args None (args g n))| |].
      + rewrite <- KS. apply mapM_Forall2, Forall2_length in E0. congruence.
      + intros ->. destruct (args g n) as [|a [|? ?]] eqn:Ea; try discriminate KS. cbn in E0. binv E0. injection E0 as <-. match goal with H : visit_argument _ _ _ _ None a = Ok ?y |- _ => rename H into E1, y into x0 end. constructor; [|constructor].
        split; [exact (Tight true a None _ (or_introl eq_refl) (O1 a [] eq_refl) E1)|].
        unfold visit_argument in E1. destruct (declared d a) eqn:Da; [injection E1 as <-; reflexivity|].
        destruct (ends_type x0) eqn:Te; [|reflexivity]. exfalso.
        assert (a < g_next g) as La by (apply (k_args _ _ (NK n L)); rewrite Ea; now left).
        apply (rk_sign _ _ _ _ _ (KO n L) a En); [rewrite Ea; now left|assumption|]. apply (ends_last k a x0); auto.
        intros Ec. specialize (O1 a [] eq_refl Da). rewrite En in O1. unfold rs_operand_ok in O1. rewrite Ec in O1. discriminate.
    - destruct (args g n) as [|a [|? ?]]; try discriminate. binv E. injection E as <-. constructor. exact (Arg a None x (or_introl eq_refl) E0).
    - destruct (args g n) as [|a [|b [|? ?]]]; try discriminate. binv E. binv E. injection E as <-. constructor.
      + exact (Arg a None x (or_introl eq_refl) E0).
      + exact (Arg b None x0 (or_intror (or_introl eq_refl)) E1).
    - destruct (args g n) as [|c [|a [|b [|? ?]]]]; try discriminate. binv E. binv E. binv E. injection E as <-. constructor.
      + exact (Arg c _ x (or_introl eq_refl) E0).
      + exact (Arg a _ x0 (or_intror (or_introl eq_refl)) E1).
      + exact (Arg b _ x1 (or_intror (or_intror (or_introl eq_refl))) E2).
    - destruct (args g n) as [|a [|? ?]]; try discriminate. exact (Arg a None e (or_introl eq_refl) E).
    - destruct (args g n) as [|a [|b [|? ?]]] eqn:Ea; try discriminate. binv E. binv E. injection E as <-.
      pose proof (Tight true a (Some multiplication) x (or_introl eq_refl) (O1 a [b] eq_refl) E0 eq_refl) as T0.
      pose proof (Tight false b (Some multiplication) x0 (or_intror (or_introl eq_refl)) (O2 a b [b] eq_refl (or_introl eq_refl)) E1 eq_refl) as T1.
      constructor; [exact (Arg a _ x (or_introl eq_refl) E0)|lia|exact (Arg b _ x0 (or_intror (or_introl eq_refl)) E1)|lia].
    - destruct KS.
    - apply (rload_fit l); [exact KT|]. now destruct (args g n).
    - destruct (2 <=? length (args g n)); [|discriminate]. binv E. injection E as <-. pose proof (Args (Some multiplication) (args g n) x (fun a H => H) E0) as F1.
      destruct (args g n) as [|a l] eqn:Ea; [cbn in KS; lia|]. cbn in E0. binv E0. binv E0. injection E0 as <-.
      destruct (Rest (Some multiplication) l x1) as (_ & F2); [|assumption|].
      { intros b Ib. split; [now right|]. exact (O2 a b l eq_refl Ib). }
      specialize (F2 eq_refl eq_refl). pose proof (Tight true a _ x0 (or_introl eq_refl) (O1 a l eq_refl) ltac:(eassumption) eq_refl) as F0.
      apply mapM_Forall2, Forall2_length in E1. destruct x1 as [|b xs]; [cbn in *; lia|]. apply Forall_cons_iff in F1 as [G1 F1]. constructor; auto; lia.
    - destruct (args g n) as [|a [|? ?]] eqn:Ea; try discriminate. binv E. injection E as <-.
      constructor; [exact (Arg a _ x (or_introl eq_refl) E0)|]. exact (Tight true a (Some multiplication) x (or_introl eq_refl) (O1 a [] eq_refl) E0 eq_refl).
  Qed.
End Tree.
