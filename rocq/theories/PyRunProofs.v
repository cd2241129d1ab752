(** Running the Python statements hands out what executing the statements of the function does. *)
From Coq Require Import String List Arith Bool Lia.
From Verif Require Import IrModel IrSpec ConvSpec AstModel AstSpec AstProofs StmtModel StmtSpec StmtStore StmtText CppStmtProofs PySpec PyCodeModel PyCodeSpec
  PyStmtSpec PyBodySpec PyRunSpec.
Import ListNotations.
Open Scope string_scope.
Open Scope list_scope.

(** The value of an expression depends on the names it reads and calls. *)
Definition vary {V} (M : meaning V) v a x : meaning V := {|
  m_var := v; m_arg := a; m_elem := m_elem M; m_field := m_field M; m_int := m_int M; m_float := m_float M; m_bool := m_bool M; m_sym := m_sym M;
  m_add := m_add M; m_mul := m_mul M; m_div := m_div M; m_neg := m_neg M; m_cmp := m_cmp M; m_cond := m_cond M;
  m_cast := m_cast M; m_std := m_std M; m_ext := x |}.
Lemma value_same {V} (M : meaning V) v a x v' a' x' : forall e,
  (forall s, In s (reads e) -> v s = v' s /\ forall m, a s m = a' s m) -> (forall f, In f (callees e) -> forall b l, x f b l = x' f b l) ->
  value_of (vary M v a x) e = value_of (vary M v' a' x') e.
Proof.
  assert (forall l, Forall (fun e => (forall s, In s (reads e) -> v s = v' s /\ forall m, a s m = a' s m) -> (forall f, In f (callees e) -> forall b l, x f b l = x' f b l) ->
    value_of (vary M v a x) e = value_of (vary M v' a' x') e) l ->
    (forall s, In s (flat_map reads l) -> v s = v' s /\ forall m, a s m = a' s m) -> (forall f, In f (flat_map callees l) -> forall b l, x f b l = x' f b l) ->
    map (value_of (vary M v a x)) l = map (value_of (vary M v' a' x')) l) as Maps.
  { intros l F R C. apply map_ext_in. intros e I. rewrite Forall_forall in F. apply F; [exact I| |].
    - intros s Is. apply R, in_flat_map. eauto.
    - intros f If. apply C, in_flat_map. eauto. }
  induction e as [s|s m|e r c IH|e f IH|z|l|b|c|l IH|l IH|e1 e2 IH1 IH2|e IH|r e1 e2 IH1 IH2|c e1 e2 IHc IH1 IH2|t e IH|f l IH|f b l IH|e IH]
    using ast_ind'; cbn [reads callees]; intros R C; try reflexivity.
  - apply (R s). now left.
  - apply (R s). now left.
  - cbn [value_of]. now rewrite IH.
  - cbn [value_of]. now rewrite IH.
  - pose proof (Maps l IH R C) as E. destruct l as [|e l]; [reflexivity|]. cbn [map] in E. injection E as E1 E2. cbn [value_of]. now rewrite E1, E2.
  - pose proof (Maps l IH R C) as E. destruct l as [|e l]; [reflexivity|]. cbn [map] in E. injection E as E1 E2. cbn [value_of]. now rewrite E1, E2.
  - cbn [value_of]. rewrite IH1, IH2; auto; intros; (apply R || apply C); rewrite in_app_iff; auto.
  - cbn [value_of]. now rewrite IH.
  - cbn [value_of]. rewrite IH1, IH2; auto; intros; (apply R || apply C); rewrite in_app_iff; auto.
  - cbn [value_of]. rewrite IHc, IH1, IH2; auto; intros; (apply R || apply C); rewrite !in_app_iff; auto.
  - cbn [value_of]. now rewrite IH.
  - cbn [value_of]. now rewrite (Maps l IH R C).
  - cbn [value_of]. rewrite (Maps l IH R) by (intros; apply C; now right). apply (C f). now left.
  - cbn [value_of]. now rewrite IH.
Qed.

Section Run.
  Variable A : algebra.
  Variable Q : selecting A.
  Variable M : meaning (D A).
  Variable O : py_ops (D A).
  Variable junk : string -> D A.
  Variables (T : py_target) (w : py_width) (ftext : load_src -> string).
  Variables temp out outer optional : string -> bool.
  Hypothesis FF : py_faithful T w ftext (python_of (D A) O (m_var M)) M.
  Hypothesis RQ : forall k, m_var M ("compute_" ++ k)%string = sem A (OOutReq k) [].
  Hypothesis AP : py_apart T temp out outer.
  Notation id_in := (id_in A (m_var M) junk).
  Notation pval := (pval A O (m_var M) junk).
  Notation set := (set A).
  Notation pdo_stmt := (pdo_stmt A Q O (m_var M) junk).
  Notation pdo_all := (pdo_all A Q O (m_var M) junk).
  Notation says := (pstmt_says T w ftext).
  Notation last := (last_output A).
  Notation free_calls := (free_calls temp out).
  Notation tame := (tame temp out).

  (** The variables hold what the statements have in scope, and other names are not assigned. *)
  Definition agree (st : store A) (E : env A) : Prop :=
    (forall s x, look A st s = Some x -> E s = Some x) /\ (forall s, temp s = false -> out s = false -> E s = None).
  Definition tidy (st : store A) : Prop := NoDup (keys st) /\ forall s, In s (keys st) -> temp s = true.

  Lemma faithful_in E : E (module_name T) = None ->
    py_faithful T w ftext (python_of (D A) O (id_in E)) (vary M (id_in E) (fun s _ => id_in E s) (fun f _ l => o_call (D A) O (id_in E f) l)).
  Proof.
    intros Em. assert (id_in E (module_name T) = m_var M (module_name T)) as I by (unfold PyRunSpec.id_in; now rewrite Em).
    assert (forall s, member T (python_of (D A) O (id_in E)) s = member T (python_of (D A) O (m_var M)) s) as Me.
    { intros s. unfold member. cbn [p_dot p_id python_of]. now rewrite I. }
    assert (forall t v, convert T w (python_of (D A) O (id_in E)) t v = convert T w (python_of (D A) O (m_var M)) t v) as Co.
    { intros t v. unfold convert. now rewrite !Me. }
    assert (forall v, constant T w (python_of (D A) O (id_in E)) v = constant T w (python_of (D A) O (m_var M)) v) as Cs.
    { intros v. unfold constant. now rewrite !Co. }
    destruct FF as [F1 F2 F3 F4 F5 F6 F7 F8 F9 F10 F11 F12 F13 F14 F15 F16 F17 F18 F19 F20 F21].
    constructor; try assumption; try reflexivity.
    - intros l s Hl Hs. rewrite Cs. exact (F7 l s Hl Hs).
    - intros l s Hl Hs. rewrite Cs. exact (F8 l s Hl Hs).
    - intros c. rewrite Me, Cs. exact (F10 c).
    - intros c a b. rewrite Me. exact (F18 c a b).
    - intros t a. rewrite Co. exact (F19 t a).
    - intros f l. rewrite Me. exact (F20 f l).
  Qed.
  Lemma free_none st E s : agree st E -> temp s = false -> out s = false -> E s = None.
  Proof. intros [_ H]. apply H. Qed.
  Lemma expression_runs st E e t x : agree st E -> free_calls e -> py_says T w ftext e t -> eval A M outer st e = Some x -> pval E t = x.
  Proof.
    intros Ag Fc S Ev. unfold eval in Ev. destruct (forallb (readable A outer st) (reads e)) eqn:R; [|discriminate]. injection Ev as <-.
    unfold PyRunSpec.pval. rewrite (S _ _ (faithful_in E (free_none st E _ Ag (proj1 (ap_module _ _ _ _ AP)) (proj2 (ap_module _ _ _ _ AP))))).
    change (within A M st) with (vary M (fun s => here A st s (m_var M s)) (fun s m => here A st s (m_arg M s m)) (m_ext M)).
    apply value_same.
    - intros s Is. rewrite forallb_forall in R. specialize (R s Is). unfold readable in R.
      assert (id_in E s = here A st s (m_var M s)) as H.
      { unfold PyRunSpec.id_in, here. destruct (look A st s) as [[v|]|] eqn:L; [|discriminate|].
        - now rewrite (proj1 Ag s _ L).
        - destruct (ap_outer _ _ _ _ AP s R) as [N1 N2]. now rewrite (proj2 Ag s N1 N2). }
      split; [exact H|]. intros m. rewrite H. unfold here. destruct (look A st s) as [[v|]|]; auto;
        (pose proof (y_var _ _ _ _ _ FF s) as Y1; pose proof (y_arg _ _ _ _ _ FF s m) as Y2; cbn in Y1, Y2; congruence).
    - intros f If b l. unfold PyRunSpec.free_calls in Fc. rewrite Forall_forall in Fc. destruct (Fc f If) as [N1 N2].
      unfold PyRunSpec.id_in. rewrite (proj2 Ag f N1 N2). exact (y_ext _ _ _ _ _ FF f b l).
  Qed.

  Lemma last_app o1 o2 k : last (o1 ++ o2) k = match last o2 k with Some y => Some y | None => last o1 k end.
  Proof.
    induction o1 as [|[[j|] x] o1 IH]; cbn [app last_output]; [now destruct (last o2 k)| |exact IH]. rewrite IH. now destruct (last o2 k).
  Qed.
  Lemma returned_app o1 o2 : returned_values A (o1 ++ o2) = returned_values A o1 ++ returned_values A o2.
  Proof. unfold returned_values. now rewrite filter_app, map_app. Qed.
  (** Running [E] to [E'] does what executing [st] to [st'] with outputs [o] does. *)
  Definition follows st st' o E E' : Prop :=
    extends_store st st' /\ tidy st' /\ agree st' E' /\
    (forall k, out k = true -> optional k = false -> E' k = match last o k with Some x => Some (Some x) | None => E k end) /\
    returned_values A o = [].
  Lemma follows_refl st E : tidy st -> agree st E -> follows st st [] E E.
  Proof. intros Td Ag. split; [apply ext_refl, Td|]. repeat split; auto; apply Ag || apply Td. Qed.
  Lemma follows_trans st0 st1 st2 o1 o2 E0 E1 E2 : follows st0 st1 o1 E0 E1 -> follows st1 st2 o2 E1 E2 -> follows st0 st2 (o1 ++ o2) E0 E2.
  Proof.
    intros (X1 & T1 & A1 & P1 & R1) (X2 & T2 & A2 & P2 & R2). split; [eapply ext_trans; eassumption|]. split; [exact T2|]. split; [exact A2|]. split.
    - intros k Ok_ Op. rewrite (P2 k Ok_ Op), (P1 k Ok_ Op), last_app. now destruct (last o2 k).
    - now rewrite returned_app, R1, R2.
  Qed.
  Lemma set_same E s x : set E s x s = Some x.
  Proof. unfold PyRunSpec.set. now rewrite String.eqb_refl. Qed.
  Lemma set_other E s x s' : s <> s' -> set E s x s' = E s'.
  Proof. intros N. unfold PyRunSpec.set. now destruct (String.eqb_spec s s'). Qed.
  Lemma follows_declare st E n x : tidy st -> agree st E -> temp n = true -> look A st n = None -> follows st ((n, x) :: st) [] E (set E n x).
  Proof.
    intros [Nd Te] [G1 G2] Tn L. apply look_none in L. split; [now apply ext_cons|]. split; [split|].
    - cbn. now constructor.
    - intros s [<-|I]; auto.
    - split; [split|split; [|reflexivity]].
      + intros s y H. cbn in H. destruct (String.eqb_spec n s) as [->|N]; [now rewrite set_same|]. rewrite set_other by assumption. auto.
      + intros s N1 N2. rewrite set_other by congruence. auto.
      + intros k Ok_ _. apply set_other. intros ->. apply (ap_temp _ _ _ _ AP) in Tn. congruence.
  Qed.
  Lemma follows_put st E n x : tidy st -> agree st E -> temp n = true -> In n (keys st) -> follows st (put A st n x) [] E (set E n (Some x)).
  Proof.
    intros [Nd Te] [G1 G2] Tn L. split; [now apply ext_put|]. split; [unfold tidy; rewrite put_keys; now split|].
    split; [split|split; [|reflexivity]].
    - intros s y H. destruct (String.eqb_spec n s) as [->|N].
      + rewrite put_same in H by assumption. injection H as <-. now rewrite set_same.
      + rewrite put_other in H by assumption. rewrite set_other by assumption. auto.
    - intros s N1 N2. rewrite set_other by congruence. auto.
    - intros k Ok_ _. apply set_other. intros ->. apply (ap_temp _ _ _ _ AP) in Tn. congruence.
  Qed.
  (** Assigning an output does not touch what is in scope. *)
  Lemma agree_out st E k x : tidy st -> agree st E -> out k = true -> agree st (set E k x).
  Proof.
    intros [Nd Te] [G1 G2] Ok_. split.
    - intros s y H. rewrite set_other; [auto|]. intros ->. assert (In s (keys st)) as I.
      { destruct (in_dec string_dec s (keys st)) as [I|I]; [exact I|]. apply look_none in I. congruence. }
      apply Te, (ap_temp _ _ _ _ AP) in I. congruence.
    - intros s N1 N2. rewrite set_other by congruence. auto.
  Qed.
  Lemma follows_leave st st1 o E E1 : tidy st -> follows st st1 o E E1 -> follows st (leave A st st1) o E E1.
  Proof.
    intros [Nd Te] (X & T1 & [G1 G2] & P & R). pose proof (leave_keys st st1 X) as K.
    split; [exists [], (leave A st st1); repeat split; [exact K|now rewrite K]|].
    split; [unfold tidy; rewrite K; now split|]. split; [split; [|exact G2]|now split].
    intros s y H. assert (In s (keys st)) as I.
    { rewrite <- K. destruct (in_dec string_dec s (keys (leave A st st1))) as [I|I]; [exact I|]. apply look_none in I. congruence. }
    rewrite leave_look in H by assumption. auto.
  Qed.

  Definition runs (s : stmt) : Prop := forall s' st fin st' o E, says s s' -> tame s -> (forall k, In k (optionals s) -> truth Q (sem A (OOutReq k) []) = false -> optional k = true) ->
    tidy st -> agree st E -> do_stmt A Q M outer s st = Some (fin, st', o) ->
    fin = false /\ exists E', pdo_stmt s' E = (E', None) /\ follows st st' o E E'.
  Lemma all_run l : Forall runs l -> forall b st fin st' o E, Forall2 says l b -> Forall tame l -> (forall k, In k (flat_map optionals l) -> truth Q (sem A (OOutReq k) []) = false -> optional k = true) ->
    tidy st -> agree st E -> do_all A Q M outer l st = Some (fin, st', o) ->
    fin = false /\ exists E', pdo_all b E = (E', None) /\ follows st st' o E E'.
  Proof.
    intros H. induction H as [|s l Hs H IH]; intros b st fin st' o E S Ta Op Td Ag Do; inversion S as [|? s' ? b' S1 S2]; subst.
    - injection Do as <- <- <-. split; [reflexivity|]. exists E. split; [reflexivity|]. now apply follows_refl.
    - inversion Ta as [|? ? Ta1 Ta2]; subst. cbn [do_all] in Do. destruct (do_stmt A Q M outer s st) as [[[f1 st1] o1]|] eqn:D1; [|discriminate].
      destruct (Hs s' st f1 st1 o1 E S1 Ta1) as (-> & E1 & P1 & F1); auto.
      { intros k I. apply Op. cbn. rewrite in_app_iff. auto. }
      destruct (do_all A Q M outer l st1) as [[[f2 st2] o2]|] eqn:D2; [|discriminate]. injection Do as <- <- <-.
      destruct F1 as (X1 & T1 & A1 & R1).
      destruct (IH b' st1 f2 st2 o2 E1 S2 Ta2) as (-> & E2 & P2 & F2); auto.
      { intros k I. apply Op. cbn. rewrite in_app_iff. auto. }
      split; [reflexivity|]. exists E2. split; [cbn [PyRunSpec.pdo_all]; rewrite P1; exact P2|]. eapply follows_trans; [|exact F2]. repeat split; try apply T1; try apply A1; apply R1 || exact X1.
  Qed.
  Lemma branch_runs e l r st : do_stmt A Q M outer (SBranch e l r) st =
    match eval A M outer st e with
    | Some x => match do_all A Q M outer (if truth Q x then l else r) st with Some (fin, st1, o) => Some (fin, leave A st st1, o) | None => None end
    | None => None
    end.
  Proof. reflexivity. Qed.
  Lemma optional_runs k l st : do_stmt A Q M outer (SOptional k l) st =
    if truth Q (sem A (OOutReq k) []) then
      match do_all A Q M outer l st with Some (fin, st1, o) => Some (fin, leave A st st1, o) | None => None end
    else Some (false, st, []).
  Proof. reflexivity. Qed.
  Lemma if_runs c l r E : pdo_stmt (PsIf c l r) E = pdo_all (if truth Q (pval E c) then l else r) E.
  Proof. reflexivity. Qed.
  Theorem stmt_runs s : runs s.
  Proof.
    induction s as [n rhs|n e|k e|e|c l r IHl IHr|k l IHl] using stmt_ind'; intros s' st fin st' o E S Ta Op Td Ag Do;
      inversion S; subst; inversion Ta; subst.
    - cbn in Do. destruct (in_scope A outer st n) eqn:Sc; [discriminate|]. destruct (eval A M outer st e) as [x|] eqn:Ev; [|discriminate].
      injection Do as <- <- <-. split; [reflexivity|]. eexists. split; [reflexivity|].
      rewrite (expression_runs st E e t x) by assumption. apply follows_declare; auto.
      unfold in_scope in Sc. destruct (look A st n); [discriminate|reflexivity].
    - cbn in Do. destruct (in_scope A outer st n) eqn:Sc; [discriminate|].
      injection Do as <- <- <-. split; [reflexivity|]. eexists. split; [reflexivity|]. apply follows_declare; auto.
      unfold in_scope in Sc. destruct (look A st n); [discriminate|reflexivity].
    - cbn in Do. destruct (look A st n) as [y|] eqn:L; [|discriminate]. destruct (eval A M outer st e) as [x|] eqn:Ev; [|discriminate].
      injection Do as <- <- <-. split; [reflexivity|]. eexists. split; [reflexivity|].
      rewrite (expression_runs st E e t x) by assumption. apply follows_put; auto.
      destruct (in_dec string_dec n (keys st)) as [I|I]; [exact I|]. apply look_none in I. congruence.
    - cbn in Do. destruct (eval A M outer st e) as [x|] eqn:Ev; [|discriminate].
      injection Do as <- <- <-. split; [reflexivity|]. eexists. split; [reflexivity|].
      rewrite (expression_runs st E e t x) by assumption. split; [apply ext_refl, Td|]. split; [exact Td|]. split; [now apply agree_out|].
      split; [|reflexivity]. intros j Oj _. cbn. destruct (String.eqb_spec k j) as [->|N]; [apply set_same|now apply set_other].
    - rewrite branch_runs in Do. destruct (eval A M outer st c) as [x|] eqn:Ev; [|discriminate].
      rewrite if_runs, (expression_runs st E c t x) by assumption.
      cbn [optionals] in Op. destruct (truth Q x).
      + destruct (do_all A Q M outer l st) as [[[f1 st1] o1]|] eqn:D1; [|discriminate]. injection Do as <- <- <-.
        destruct (all_run l IHl l' st f1 st1 o1 E) as (-> & E1 & P1 & F1); auto; [intros j I; apply Op; rewrite in_app_iff; auto|].
        split; [reflexivity|]. exists E1. split; [exact P1|now apply follows_leave].
      + destruct (do_all A Q M outer r st) as [[[f1 st1] o1]|] eqn:D1; [|discriminate]. injection Do as <- <- <-.
        destruct (all_run r IHr r' st f1 st1 o1 E) as (-> & E1 & P1 & F1); auto; [intros j I; apply Op; rewrite in_app_iff; auto|].
        split; [reflexivity|]. exists E1. split; [exact P1|now apply follows_leave].
    - rewrite optional_runs in Do. rewrite if_runs.
      assert (pval E (PId ("compute_" ++ k)%string) = sem A (OOutReq k) []) as ->.
      { unfold PyRunSpec.pval. cbn [py_eval python_of p_id]. unfold PyRunSpec.id_in. destruct (ap_compute _ _ _ _ AP k) as [N1 N2].
        now rewrite (proj2 Ag _ N1 N2). }
      cbn [optionals] in Op. destruct (truth Q (sem A (OOutReq k) [])) eqn:Tr.
      + destruct (do_all A Q M outer l st) as [[[f1 st1] o1]|] eqn:D1; [|discriminate]. injection Do as <- <- <-.
        destruct (all_run l IHl l' st f1 st1 o1 E) as (-> & E1 & P1 & F1); auto; [intros j I; apply Op; now right|].
        split; [reflexivity|]. exists E1. split; [exact P1|now apply follows_leave].
      + injection Do as <- <- <-. split; [reflexivity|]. eexists. split; [reflexivity|].
        split; [apply ext_refl, Td|]. split; [exact Td|]. split; [now apply agree_out|]. split; [|reflexivity].
        intros j Oj Pj. apply set_other. intros ->. rewrite Op in Pj by (auto; now left). discriminate.
  Qed.

  (** ** Whole functions *)
  Lemma do_all_app l1 l2 st : do_all A Q M outer (l1 ++ l2) st =
    match do_all A Q M outer l1 st with
    | Some (false, st1, o1) => match do_all A Q M outer l2 st1 with Some (fin, st2, o2) => Some (fin, st2, o1 ++ o2) | None => None end
    | r => r
    end.
  Proof.
    revert st. induction l1 as [|s l1 IH]; intros st; cbn [app do_all].
    - destruct (do_all A Q M outer l2 st) as [[[? ?] ?]|]; reflexivity.
    - destruct (do_stmt A Q M outer s st) as [[[[] st1] o1]|]; try reflexivity. rewrite IH.
      destruct (do_all A Q M outer l1 st1) as [[[[] st2] o2]|]; try reflexivity.
      destruct (do_all A Q M outer l2 st2) as [[[f3 st3] o3]|]; [now rewrite app_assoc|reflexivity].
  Qed.
  Lemma pdo_all_app b1 b2 E : pdo_all (b1 ++ b2) E = match pdo_all b1 E with (E1, None) => pdo_all b2 E1 | r => r end.
  Proof.
    revert E. induction b1 as [|s b1 IH]; intros E; cbn [app PyRunSpec.pdo_all]; [reflexivity|]. destruct (pdo_stmt s E) as [E1 [x|]]; [reflexivity|apply IH].
  Qed.
  Lemma returned_preturn b ts E : pdo_all b (nothing A) = (E, None) ->
    returned A Q O (m_var M) junk (b ++ preturn ts) = map (pval E) ts.
  Proof. intros H. unfold returned. rewrite pdo_all_app, H. destruct ts; reflexivity. Qed.
  Lemma outputs_delivered outs o E : Forall (fun k => out k = true) outs ->
    (forall k, out k = true -> optional k = false -> E k = match last o k with Some x => Some (Some x) | None => None end) ->
    Forall2 (fun k x => optional k = false -> forall v, last o k = Some v -> x = v) outs (map (pval E) (map PId outs)).
  Proof.
    intros F H. induction F as [|k outs Fk F IH]; cbn [map]; constructor; [|exact IH]. intros Op v L.
    unfold PyRunSpec.pval. cbn [py_eval python_of p_id]. unfold PyRunSpec.id_in. now rewrite (H k Fk Op), L.
  Qed.
  Theorem body_runs outs ss b o : Forall (fun k => out k = true) outs -> pbody_says T w ftext outs ss b -> Forall tame ss ->
    (forall k, In k (flat_map optionals ss) -> truth Q (sem A (OOutReq k) []) = false -> optional k = true) -> function_outputs A Q M outer ss = Some o ->
    exists l, returned A Q O (m_var M) junk b = returned_values A o ++ l /\
      Forall2 (fun k x => optional k = false -> forall v, last o k = Some v -> x = v) outs l.
  Proof.
    intros Fo S Ta Op Do. unfold function_outputs in Do. destruct (do_all A Q M outer ss []) as [[[fin st'] o']|] eqn:D; [|discriminate]. injection Do as ->.
    assert (tidy []) as T0 by (split; [constructor|intros s []]).
    assert (agree [] (nothing A)) as A0 by (split; [discriminate|reflexivity]).
    assert (forall l, Forall runs l) as Rn by (intros l; apply Forall_forall; intros s _; apply stmt_runs).
    destruct S as [l b S|l b e t S Se].
    - destruct (all_run l (Rn l) b [] fin st' o (nothing A) S Ta Op T0 A0 D) as (_ & E1 & P1 & (_ & _ & _ & H & R)).
      eexists. rewrite (returned_preturn _ _ _ P1), R. split; [reflexivity|]. now apply outputs_delivered.
    - apply Forall_app in Ta as [Ta1 Ta2]. rewrite do_all_app in D. destruct (do_all A Q M outer l []) as [[[f1 st1] o1]|] eqn:D1; [|discriminate].
      destruct (all_run l (Rn l) b [] f1 st1 o1 (nothing A) S Ta1) as (-> & E1 & P1 & (_ & T1 & A1 & H & R)); auto.
      { intros k I. apply Op. rewrite flat_map_app, in_app_iff. auto. }
      cbn in D. destruct (eval A M outer st1 e) as [x|] eqn:Ev; [|discriminate]. injection D as <- <- <-.
      inversion Ta2 as [|? ? Ta3 _]; subst. inversion Ta3; subst.
      exists (map (pval E1) (map PId outs)). rewrite (returned_preturn _ _ _ P1), returned_app, R. split.
      + cbn [map]. change (returned_values A [(None, x)]) with [x]. cbn [app]. f_equal. now apply (expression_runs st1 E1 e t x).
      + apply outputs_delivered; [exact Fo|]. intros k Ok_ Opk. rewrite (H k Ok_ Opk), last_app. reflexivity.
  Qed.
End Run.

Lemma forall2_weaken {X Y} (R S : X -> Y -> Prop) l l' : (forall x y, R x y -> S x y) -> Forall2 R l l' -> Forall2 S l l'.
Proof. induction 2; constructor; auto. Qed.
Theorem body_returns A Q M O junk T w ftext temp out outer outs ss b o :
  py_faithful T w ftext (python_of (D A) O (m_var M)) M -> (forall k, m_var M ("compute_" ++ k)%string = sem A (OOutReq k) []) ->
  py_apart T temp out outer -> Forall (fun k => out k = true) outs -> pbody_says T w ftext outs ss b -> Forall (tame temp out) ss ->
  function_outputs A Q M outer ss = Some o ->
  exists l, returned A Q O (m_var M) junk b = returned_values A o ++ l /\ Forall2 (delivers A Q ss o) outs l.
Proof.
  intros FF RQ AP Fo S Ta Do.
  destruct (body_runs A Q M O junk T w ftext temp out outer
    (fun k => existsb (String.eqb k) (flat_map optionals ss) && negb (truth Q (sem A (OOutReq k) []))) FF RQ AP outs ss b o Fo S Ta) as (l & E & F); [|exact Do|].
  - intros k I H. rewrite H. cbn. rewrite andb_true_r. apply existsb_exists. exists k. now rewrite String.eqb_refl.
  - exists l. split; [exact E|]. eapply forall2_weaken; [|exact F]. cbn beta. intros k x H N. apply H. apply not_true_is_false. intros B.
    apply N. apply andb_prop in B as [B1 B2]. apply existsb_exists in B1 as (j & Ij & Ej). apply String.eqb_eq in Ej as ->.
    split; [exact Ij|]. now apply negb_true_iff in B2.
Qed.
