(** C27, C39 and C40: lowering expressions to operations. *)
From Coq Require Import String List Arith ZArith Reals Bool Lia Lra Permutation.
From Verif Require Import Outcome RationalModel ExprModel BuildModel FuncModel MapModel DerivModel ExprSpec OrderSpec MapSpec NumProofs ExprProofs BuildProps
  IrModel IrSpec IrProofs IrProps PassModel PassProps LowerModel LowerSpec LowerProofs LowerSortProofs.
Import ListNotations.
Open Scope outcome_scope.
Open Scope nat_scope.

(** ** C27 *)
Section Instance.
Variables (I : impl) (n : nat) (K : ids) (s : ExprSpec.env) (inp : load_src -> R) (junk : op -> list R -> R).
Hypothesis Hinp : inputs_agree K s inp.
Hypothesis HI : impl_ok I.
Hypothesis Hs : env_ok s.

Lemma lowered_value k e v st : lower I n K k e empty_state = Ok (v, st) ->
  linv s inp junk (good I n s) False st /\ valued s inp junk (good I n s) st v e.
Proof.
  intros H. apply (lower_ok I n K s inp junk Hinp (good I n s) False HI Hs) in H.
  - destruct H as (L & _ & V). split; [exact L|exact V].
  - now intros ? [].
  - exact (g_child I n s).
  - exact (g_int I n s).
  - exact (g_neg I n s HI Hs).
  - exact (g_recip I n s HI Hs).
  - exact (g_base I n s).
  - intros q e0 Id G. apply float_free_ident; auto. eapply g_free; eauto.
  - apply linv_empty.
Qed.
Lemma lowered_outputs up k outs st : Forall (fits I n up) outs -> lower_all I n K k outs = Ok st ->
  linv s inp junk (good I n s) up st /\ all_saved I n s inp junk (good I n s) st outs.
Proof.
  intros F H. apply (lower_all_ok I n K s inp junk Hinp (good I n s) up HI Hs) in H; auto.
  - now intros ? [].
  - exact (g_child I n s).
  - exact (g_int I n s).
  - exact (g_neg I n s HI Hs).
  - exact (g_recip I n s HI Hs).
  - exact (g_base I n s).
  - intros q e0 Id G. apply float_free_ident; auto. eapply g_free; eauto.
Qed.
End Instance.

Lemma program_runs A g ops : program lower_typing g 0 ops ->
  exists (q : name -> D A) r, consistent q g ops /\ exec A g ops (no_values A) = Some r /\ forall v, In v ops -> r v = Some (q v).
Proof.
  intros P.
  destruct (consistent_exists (T := lower_typing) A g 0 ops [] (fun _ => d0 A)) as [q C]; [exact P|intros w []|].
  cbn [app] in C. exists q.
  destruct (exec_consistent (T := lower_typing) A g 0 ops [] (no_values A) q) as (r & X & Y); [exact P|exact C|intros w []|].
  exists r. auto.
Qed.

(** Running the operations gives the value of the expression, whatever the machine does where there is none. *)
Theorem C27_lowering : forall I n K s inp junk k e v st,
  impl_ok I -> env_ok s -> inputs_agree K s inp ->
  lower I n K k e empty_state = Ok (v, st) -> wf s e -> lowerable I n s e ->
  program lower_typing (l_graph st) 0 (l_ops st) /\
  exists r, exec (real_algebra inp junk) (l_graph st) (l_ops st) (no_values _) = Some r /\
    forall x, eval s e = Rv x -> r v = Some x.
Proof.
  intros I n K s inp junk k e v st HI Hs Hi H W Lo.
  destruct (lowered_value I n K s inp junk Hi HI Hs k e v st H) as [L (Iv & _ & _ & V)].
  pose proof (li_prog _ _ _ _ _ _ L) as P. split; [exact P|].
  destruct (program_runs (real_algebra inp junk) _ _ P) as (q & r & C & X & Y).
  exists r. split; [exact X|]. intros x Hx. rewrite (Y v Iv). f_equal. apply (V (conj W Lo) q C x Hx).
Qed.
Print Assumptions C27_lowering.

Definition ids_ex : ids :=
  mk_ids (fun v => match v with VNamed "x" _ => 0 | VNamed "y" _ => 1 | _ => 2 end) (fun _ => 0) Z.to_nat (fun _ => 0%Z).
Definition lowered (e : expr) : outcome (list (name * op * list name)) :=
  let* r := lower impl_ex 20 ids_ex 20 e empty_state in Ok (show (l_graph (snd r), l_ops (snd r))).
(** -3 * x^2 * y, y^(-1/2), x^5 + 2 and a selection between an integer and a float. *)
Example C27_lowering_ex :
  lowered (EMul [EInt (-3); EPow vx (EInt 2); vy]) =
    Ok [(0, OLoad (LInt 3), []); (1, OLoad (LVar 0), []); (2, OLoad (LVar 1), []); (3, OLoad (LInt (-1)), []);
        (4, OCast NFloat, [0]); (5, OCast NFloat, [3]); (6, OMul, [1; 1; 2; 4; 5])] /\
  lowered (EPow vy (ERat (mk_rat (-1) 2))) =
    Ok [(0, OLoad (LVar 1), []); (1, OCallStd F_sqrt, [0]); (2, OLoad (LInt 1), []); (3, OCast NFloat, [2]); (4, ODiv, [3; 1])] /\
  lowered (EAdd [EInt 2; EPow vx (EInt 5)]) =
    Ok [(0, OLoad (LInt 2), []); (1, OLoad (LVar 0), []); (2, OMul, [1; 1]); (3, OMul, [2; 2]); (4, OMul, [1; 3]);
        (5, OCast NFloat, [0]); (6, OAdd, [4; 5])] /\
  lowered (ECond (ERel ExprModel.RLt vx (EInt 0)) (EInt 1) vy) =
    Ok [(0, OLoad (LVar 0), []); (1, OLoad (LInt 0), []); (2, OCast NFloat, [1]); (3, OCompare IrModel.RLt, [0; 2]);
        (4, OLoad (LInt 1), []); (5, OLoad (LVar 1), []); (6, OCast NFloat, [4]); (7, OCond, [3; 6; 5])].
Proof. repeat split; vm_compute; reflexivity. Qed.

(** There are inputs for every assignment, if the numbers of the variables tell the variables. *)
Theorem C27_inputs_exist : forall K s dv da de,
  (forall v, dv (id_var K v) = v) -> (forall a, da (id_arg K a) = a) -> (forall i, de (id_elem K i) = i) ->
  (forall a i, ev s (VArg a i prim_boolean) = 0 \/ ev s (VArg a i prim_boolean) = 1)%R ->
  exists inp, inputs_agree K s inp.
Proof.
  intros K s dv da de Hv Ha He Hb.
  exists (fun l => match l with
    | LVar k => ev s (dv k)
    | LArg a k => ev s (VArg (da (a / 3)) (de k) (match a mod 3 with 0 => prim_boolean | 1 => prim_integral | _ => prim_floating end))
    | _ => 0%R end).
  split; [intros a set; now rewrite Hv|]. split; [|split].
  - intros a i p. rewrite He. rewrite (Nat.mul_comm 3), (Nat.add_comm (_ * 3)).
    rewrite Nat.div_add, Nat.mod_add by lia. assert (Hp : numeric_rank (of_prim p) < 3) by (destruct p; cbn; lia).
    rewrite (Nat.div_small _ _ Hp), Nat.add_0_l, Ha. do 2 f_equal. destruct p; reflexivity.
  - exact Hb.
  - intros a k ->. apply Hb.
Qed.
Print Assumptions C27_inputs_exist.
Example C27_inputs_exist_ex : inputs_agree ids_ex (ExprSpec.mk_env (fun _ => 1%R) (fun _ _ => 0%R)) (fun _ => 1%R).
Proof. repeat split; auto. Qed.

(** Sorting the operands of sums and products first keeps the value. *)
Theorem C27_sorting : forall I n s e d,
  impl_ok I -> env_ok s -> wf s e -> logs_fine (sort_expression I n) s e -> factors_fine (sort_expression I n) e ->
  sort_expression I n e = Ok d -> wf s d /\ forall x, eval s e = Rv x -> eval s d = Rv x.
Proof.
  intros I n s e d HI Hs W Lg Fa H. unfold sort_expression in H. binv H. injection H as <-. destruct x as [d []].
  destruct (sorter_sound I n s HI Hs e W Lg Fa d E) as [[Wd R] _]. split; [exact Wd|]. intros x Hx. rewrite Hx in R. exact R.
Qed.
Print Assumptions C27_sorting.
Example C27_sorting_ex :
  sort_expression impl_ex 20 (EMul [EPow (EAdd [vy; vx; EInt 1]) (EInt 2); EInt 4]) =
    Ok (EMul [EInt 4; EPow (EAdd [EInt 1; vx; vy]) (EInt 2)]) /\
  factors_fine (sort_expression impl_ex 20) (EMul [EPow (EAdd [vy; vx; EInt 1]) (EInt 2); EInt 4]).
Proof.
  split; [vm_compute; reflexivity|]. cbn [factors_fine all_of fold_right].
  repeat match goal with |- _ /\ _ => split end; try exact Logic.I; intros d Hd; vm_compute in Hd; injection Hd as <-; split; reflexivity.
Qed.

(** Every output is written, and nothing else is. *)
Theorem C27_outputs : forall I n K s inp junk k outs st,
  impl_ok I -> env_ok s -> inputs_agree K s inp ->
  (forall o, In o outs -> o_type o = NBool -> is_boolean (o_expr o) = true) ->
  lower_all I n K k outs = Ok st ->
  program lower_typing (l_graph st) 0 (l_ops st) /\
  exists r, exec (real_algebra inp junk) (l_graph st) (l_ops st) (no_values _) = Some r /\
    let writes := writes (real_algebra inp junk) (l_graph st) (l_ops st) r in
    let means o x := exists e, sort_expression I n (o_expr o) = Ok e /\ wf s e /\ lowerable I n s e /\ eval s e = Rv x /\
                               (o_type o = NInt -> exists z, x = IZR z) in
    (forall o, In o outs -> exists y, writes (o_usage o) (o_key o) y /\ forall x, means o x -> y = x) /\
    (forall u key y, writes u key y -> exists o, In o outs /\ o_usage o = u /\ o_key o = key /\ forall x, means o x -> y = x).
Proof.
  intros I n K s inp junk k outs st HI Hs Hi Hb H.
  destruct (lowered_outputs I n K s inp junk Hi HI Hs False k outs st) as [L (_ & S1 & S2)].
  - rewrite Forall_forall. intros o Ho. split; [intros []|]. intros Ot e He. eapply sorter_boolean; eauto.
  - exact H.
  - pose proof (li_prog _ _ _ _ _ _ L) as P. split; [exact P|].
    destruct (program_runs (real_algebra inp junk) _ _ P) as (q & r & C & X & Y). exists r. split; [exact X|].
    assert (Arg : forall v a, In v (l_ops st) -> args (l_graph st) v = [a] -> r a = Some (q a)).
    { intros v a Hv Ha. apply Y. eapply args_in; [apply P|exact Hv|]. rewrite Ha. now left. }
    cbv zeta. split.
    + intros o Ho. destruct (S1 o Ho) as (v & Hv & Ov & a & Ha & Va). exists (q a). split.
      * exists v, a. split; [exact Hv|]. split; [exact Ov|]. split; [exact Ha|]. now apply (Arg v).
      * intros x (e & He & W & Lo & Hx & Hz). exact (Va e x He (conj W Lo) Hx Hz q C).
    + intros u key y (v & a & Hv & Ov & Ha & Hy). destruct (S2 v u key Hv Ov) as (o & Ho & Ov' & a' & Ha' & Va).
      exists o. rewrite Ov in Ov'. injection Ov' as -> ->. split; [exact Ho|]. split; [reflexivity|]. split; [reflexivity|].
      intros x (e & He & W & Lo & Hx & Hz). rewrite Ha in Ha'. injection Ha' as <-.
      rewrite (Arg v a Hv Ha) in Hy. injection Hy as <-. exact (Va e x He (conj W Lo) Hx Hz q C).
Qed.
Print Assumptions C27_outputs.
Example C27_outputs_ex :
  (let* st := lower_all impl_ex 20 ids_ex 20
     [mk_out 0 "a" (EMul [EInt 2; vx]) NFloat; mk_out 1 "b" (EFun Ffloor [vx]) NFloat; mk_out 1 "c" (ERel ExprModel.RLe vx (EInt 2)) NBool] in
   Ok (show (l_graph st, l_ops st))) =
  Ok [(0, OLoad (LInt 2), []); (1, OLoad (LVar 0), []); (2, OCast NFloat, [0]); (3, OMul, [1; 2]); (4, OSave 0 "a", [3]);
      (5, OCallStd F_floor, [1]); (6, OCast NFloat, [5]); (7, OSave 1 "b", [6]);
      (8, OCompare IrModel.RLe, [1; 2]); (9, OSave 1 "c", [8])].
Proof. vm_compute; reflexivity. Qed.

(** After all the simplifications of the block as well. *)
Theorem C27_simplified_outputs : forall I n K s inp junk k outs st passes binarize,
  impl_ok I -> env_ok s -> inputs_agree K s inp ->
  (forall o, In o outs -> o_type o = NBool -> is_boolean (o_expr o) = true) ->
  lower_all I n K k outs = Ok st ->
  exists enough g ops, (forall fuel, enough <= fuel -> apply_simplifications fuel passes 0 binarize (l_graph st, l_ops st) = Ok (g, ops)) /\
  exists r, exec (real_algebra inp junk) g ops (no_values _) = Some r /\
    let writes := writes (real_algebra inp junk) g ops r in
    let means o x := exists e, sort_expression I n (o_expr o) = Ok e /\ wf s e /\ lowerable I n s e /\ eval s e = Rv x /\
                               (o_type o = NInt -> exists z, x = IZR z) in
    (forall o, In o outs -> exists y, writes (o_usage o) (o_key o) y /\ forall x, means o x -> y = x) /\
    (forall u key y, writes u key y -> exists o, In o outs /\ o_usage o = u /\ o_key o = key /\ forall x, means o x -> y = x).
Proof.
  intros I n K s inp junk k outs st passes binarize HI Hs Hi Hb H.
  destruct (C27_outputs I n K s inp junk k outs st HI Hs Hi Hb H) as [P (r & X & W1 & W2)].
  destruct (C31_simplifications_keep_outputs lower_typing passes binarize _ 0 _ P) as (enough & g & ops & E & Sm & _).
  exists enough, g, ops. split; [exact E|]. destruct (Sm (real_algebra inp junk)) as (e & e' & X1 & X2 & Same). cbn [fst snd] in *.
  rewrite X in X1. injection X1 as <-. exists e'. split; [exact X2|]. cbv zeta in *. split.
  - intros o Ho. destruct (W1 o Ho) as (y & Wy & My). exists y. split; [now apply Same|exact My].
  - intros u key y Wy. apply W2. now apply Same.
Qed.
Print Assumptions C27_simplified_outputs.
Example C27_simplified_outputs_ex :
  (let* st := lower_all impl_ex 20 ids_ex 20
     [mk_out 0 "a" (EAdd [EMul [vx; vy]; EMul [EInt 2; vx]]) NFloat; mk_out 0 "b" (EMul [vx; vy]) NFloat] in
   let* q := apply_simplifications 10 2 0 true (l_graph st, l_ops st) in Ok (show q)) =
  Ok [(0, OLoad (LInt 2), []); (1, OLoad (LVar 0), []); (2, OCast NFloat, [0]); (4, OLoad (LVar 1), []);
      (5, OMul, [1; 4]); (8, OSave 0 "b", [5]); (9, OAdd, [2; 4]); (10, OMul, [1; 9]); (7, OSave 0 "a", [10])].
Proof. vm_compute; reflexivity. Qed.

(** ** C39 *)
Section Structure.
(** The part of the invariant that is not about values. *)
Definition env1 : ExprSpec.env := ExprSpec.mk_env (fun _ => 1%R) (fun _ _ => 0%R).
Definition shape (up : Prop) (st : lstate) : Prop :=
  linv env1 (fun _ => 1%R) (fun _ _ => 0%R) (fun _ => False) up st.
Lemma inp1 K : inputs_agree K env1 (fun _ => 1%R).
Proof. repeat split; auto. Qed.
Lemma env1_ok : env_ok env1.
Proof. intros v. cbn. destruct (var_set v); cbn; try exact Logic.I; lra. Qed.
End Structure.

(** A state in which lowering can go on: the operations so far are a program, all have operands of one type, and the
    caches lead to operations. *)
Lemma shape_reachable I n K k outs st : impl_ok I -> Forall (fun o => o_type o = NFloat) outs ->
  lower_all I n K k outs = Ok st -> shape True st.
Proof.
  intros HI F H.
  apply (lower_all_ok I n K env1 (fun _ => 1%R) (fun _ _ => 0%R) (inp1 K) (fun _ => False) True HI env1_ok) in H;
    [exact (proj1 H)|try tauto..].
  eapply Forall_impl; [|exact F]. intros o Ho. split; [auto|]. rewrite Ho. discriminate.
Qed.

(** The multiplications emitted for base^n, n > 0: they compute the power in every monoid, and there are
    floor(log2 n) + (number of ones of n in binary) - 1 of them. *)
Theorem C39_squaring : forall rec up st base exponent v st',
  shape up st -> In base (l_ops st) -> ty_of (l_graph st) base = TScalar NFloat -> 0 < exponent ->
  exponentiate_by_squaring rec base exponent st = Ok (v, st') ->
  exists l, l_ops st' = l_ops st ++ l /\
    length l = Nat.log2 exponent + (ones (Pos.of_nat exponent) - 1) /\ length l <= 2 * Nat.log2 exponent /\
    (forall w, In w l -> op_of (l_graph st') w = OMul /\ exists a b, args (l_graph st') w = [a; b]) /\
    forall (M : Type) (one : M) (mul : M -> M -> M),
      (forall x y z, mul x (mul y z) = mul (mul x y) z) -> (forall x, mul one x = x) -> (forall x, mul x one = x) ->
      forall r : name -> M,
      (forall w a b, In w l -> args (l_graph st') w = [a; b] -> r w = mul (r a) (r b)) ->
      r v = mpow one mul (r base) exponent.
Proof.
  intros rec up st base exponent v st' L Ib Tb Hn H. destruct exponent as [|k]; [lia|]. cbn [exponentiate_by_squaring] in H.
  apply (squaring_shape env1 (fun _ => 1%R) (fun _ _ => 0%R) (fun _ => False) up) in H as (l & Ol & Nl & Ml & Vl);
    [|tauto|exact L|now split|discriminate].
  assert (Eq : Pos.of_nat (S k) = Pos.of_succ_nat k) by (symmetry; apply Pos.of_nat_succ).
  assert (Lg : forall p, Nat.log2 (Pos.to_nat p) = Pos.size_nat p - 1 /\ ones p <= Pos.size_nat p /\ 1 <= ones p).
  { clear. intros p. split; [|split].
    - induction p as [p IH|p IH|].
      + rewrite Pos2Nat.inj_xI. assert (0 < Pos.to_nat p) by apply Pos2Nat.is_pos. rewrite <- (Nat.add_1_r (2 * _)), Nat.log2_succ_double by lia. rewrite IH.
        assert (1 <= Pos.size_nat p) by (destruct p; cbn; lia). cbn. lia.
      + rewrite Pos2Nat.inj_xO. assert (0 < Pos.to_nat p) by apply Pos2Nat.is_pos. rewrite Nat.log2_double by lia. rewrite IH.
        assert (1 <= Pos.size_nat p) by (destruct p; cbn; lia). cbn. lia.
      + reflexivity.
    - induction p; cbn; lia.
    - induction p; cbn; lia. }
  destruct (Lg (Pos.of_succ_nat k)) as (L1 & L2 & L3). rewrite SuccNat2Pos.id_succ in L1.
  exists l. split; [exact Ol|]. rewrite Eq. split; [lia|]. split; [lia|]. split; [exact Ml|].
  intros M one mul As U1 U2 r Hm.
  rewrite (Vl M one mul As U1 U2 r Hm (r base) 1 0).
  - rewrite SuccNat2Pos.id_succ. f_equal. lia.
  - cbn. now rewrite U2.
  - reflexivity.
Qed.
Print Assumptions C39_squaring.
(** x^13 with five multiplications, x^16 with four. *)
Example C39_squaring_ex :
  lowered (EPow vx (EInt 13)) =
    Ok [(0, OLoad (LVar 0), []); (1, OMul, [0; 0]); (2, OMul, [1; 1]); (3, OMul, [0; 2]); (4, OMul, [2; 2]); (5, OMul, [3; 4])] /\
  lowered (EPow vx (EInt 16)) =
    Ok [(0, OLoad (LVar 0), []); (1, OMul, [0; 0]); (2, OMul, [1; 1]); (3, OMul, [2; 2]); (4, OMul, [3; 3])] /\
  Nat.log2 13 + (ones (Pos.of_nat 13) - 1) = 5.
Proof. repeat split; vm_compute; reflexivity. Qed.

(** The states in which this is used exist. *)
Theorem C39_reachable : forall I n K k outs st, impl_ok I -> Forall (fun o => o_type o = NFloat) outs ->
  lower_all I n K k outs = Ok st -> shape True st.
Proof. exact shape_reachable. Qed.
Print Assumptions C39_reachable.
Example C39_reachable_ex :
  exists st, lower_all impl_ex 20 ids_ex 20 [mk_out 0 "a" (EPow vx (EInt 3)) NFloat] = Ok st /\
    In 0 (l_ops st) /\ ty_of (l_graph st) 0 = TScalar NFloat.
Proof. eexists. split; [vm_compute; reflexivity|]. split; [cbn; auto|reflexivity]. Qed.

(** ** C40 *)
(** The type of a sum or product is the largest among its operands (and integer, if they are all booleans). *)
Theorem C40_promotion : forall g l ts, map (ty_of g) l = map TScalar ts ->
  exists t, promoted g l NInt = Ok t /\ is_max t (NInt :: ts).
Proof.
  assert (G : forall g l ts u, map (ty_of g) l = map TScalar ts ->
    exists t, promoted g l u = Ok t /\ is_max t (u :: ts)).
  { intros g l. induction l as [|v l IH]; intros ts u H; destruct ts as [|w ts]; try discriminate; cbn [promoted].
    - exists u. split; [reflexivity|]. split; [now left|]. intros x [<-|[]]. lia.
    - cbn in H. injection H as Hv Hl. rewrite (numeric_type_of g v w Hv). cbn [bind].
      destruct (IH ts (numeric_max u w) Hl) as (t & E & [M1 M2]). exists t. split; [exact E|]. split.
      + destruct M1 as [<-|M1]; [|right; now right]. unfold numeric_max. destruct (_ <? _); [right; now left|now left].
      + assert (Hm : numeric_rank (numeric_max u w) <= numeric_rank t) by (apply M2; now left).
        pose proof (max_l u w). pose proof (max_r u w).
        intros x [<-|[<-|Hx]]; [lia|lia|]. apply M2. now right. }
  intros g l ts. apply G.
Qed.
Print Assumptions C40_promotion.
Example C40_promotion_ex : is_max NFloat [NInt; NBool; NFloat; NInt] /\ ~ is_max NInt [NInt; NBool; NFloat; NInt].
Proof.
  split; [split; [cbn; auto|]|].
  - intros u Hu. destruct u; cbn; lia.
  - intros [_ H]. assert (X : numeric_rank NFloat <= numeric_rank NInt) by (apply H; cbn; auto). cbn in X. lia.
Qed.

(** It does not depend on the order of the operands. *)
Theorem C40_promotion_order : forall g l l' t, Permutation l l' -> promoted g l t = promoted g l' t.
Proof.
  intros g l l' t P. revert t. induction P as [|v l l' P IH|v w l|l l' l'' P1 IH1 P2 IH2]; intros t; cbn [promoted].
  - reflexivity.
  - destruct (numeric_type g v); cbn [bind]; auto.
  - unfold numeric_type. destruct (ty_of g v) as [|a| |], (ty_of g w) as [|b| |]; cbn [bind]; try reflexivity.
    f_equal. destruct t, a, b; reflexivity.
  - now rewrite IH1.
Qed.
Print Assumptions C40_promotion_order.
Example C40_promotion_order_ex :
  (let* st := lower_all impl_ex 20 ids_ex 20 [mk_out 0 "a" (EAdd [EInt 1; vx; EIver (ERel ExprModel.RLt vx vy)]) NFloat] in
   Ok (show (l_graph st, l_ops st))) =
  Ok [(0, OLoad (LInt 1), []); (1, OLoad (LVar 0), []); (2, OLoad (LVar 1), []); (3, OCompare IrModel.RLt, [1; 2]);
      (4, OCast NInt, [3]); (5, OCast NFloat, [0]); (6, OCast NFloat, [4]); (7, OAdd, [1; 5; 6]); (8, OSave 0 "a", [7])].
Proof. vm_compute; reflexivity. Qed.

(** Every operation receives operands of a single type ([one_type]), whatever is lowered. *)
Theorem C40_one_type : forall I n K k outs st, impl_ok I ->
  Forall (fun o => o_type o = NFloat) outs -> lower_all I n K k outs = Ok st ->
  program lower_typing (l_graph st) 0 (l_ops st) /\ forall v, In v (l_ops st) -> one_type (l_graph st) v.
Proof.
  intros I n K k outs st HI F H. apply shape_reachable in H; auto. split; [apply H|].
  intros v Hv. pose proof (li_one _ _ _ _ _ _ H v Hv) as O. unfold one_type' in O.
  destruct (op_of (l_graph st) v); auto.
Qed.
Print Assumptions C40_one_type.
Example C40_one_type_ex :
  exists st, lower_all impl_ex 20 ids_ex 20 [mk_out 0 "a" (EMul [EInt 2; EFun Ffloor [vx]; vy]) NFloat] = Ok st /\
    map (fun v => (op_of (l_graph st) v, ty_of (l_graph st) v)) (l_ops st) =
      [(OLoad (LInt 2), TScalar NInt); (OLoad (LVar 1), TScalar NFloat); (OLoad (LVar 0), TScalar NFloat); (OCallStd F_floor, TScalar NInt);
       (OCast NFloat, TScalar NFloat); (OCast NFloat, TScalar NFloat); (OMul, TScalar NFloat); (OSave 0 "a", TVoid)].
Proof. eexists. split; vm_compute; reflexivity. Qed.

(** Casts never lose anything: [OCast] only leads to larger types; a cast is made only when it is needed. *)
Theorem C40_casts_needed : forall v t st c st', maybe_cast v t st = Ok (c, st') ->
  exists u, ty_of (l_graph st) v = TScalar u /\
    (u = t -> c = v /\ st' = st) /\
    (u <> t -> In (v, t, c) (l_casts st')) /\
    (forall d, find_cast (v, t) (l_casts st) = Some d -> u <> t -> c = d /\ st' = st).
Proof.
  intros v t st c st' H. unfold maybe_cast in H. binv H. apply numeric_type_inv in E. exists x. split; [exact E|].
  destruct (numeric_dec x t) as [->|N].
  - injection H as <- <-. repeat split; congruence.
  - split; [congruence|]. destruct (find_cast (v, t) (l_casts st)) as [d|] eqn:F.
    + injection H as <- <-. split; [intros _; now apply find_cast_in in F|]. intros d' [= <-] _. auto.
    + binv H. destruct x0 as [c' st1]. injection H as <- <-. split; [intros _; now left|]. intros d [=].
Qed.
Print Assumptions C40_casts_needed.
Example C40_casts_needed_ex :
  lowered (EMul [EAdd [EInt 2; vx]; EAdd [EInt 2; vy]]) =
  Ok [(0, OLoad (LInt 2), []); (1, OLoad (LVar 0), []); (2, OCast NFloat, [0]); (3, OAdd, [1; 2]); (4, OLoad (LVar 1), []);
      (5, OAdd, [2; 4]); (6, OMul, [3; 5])].
Proof. vm_compute; reflexivity. Qed.

(** The arguments of calls to mathematical functions are not cast: cos(floor(x)) is called with an integer, and
    atan2 with one operand of each type. *)
Theorem C40_call_refuted : exists e v st, lower impl_ex 20 ids_ex 20 e empty_state = Ok (v, st) /\
  op_of (l_graph st) v = OCallStd F_atan2 /\
  map (ty_of (l_graph st)) (args (l_graph st) v) = [TScalar NInt; TScalar NFloat].
Proof.
  exists (EFun Fatan2 [EFun Ffloor [vx]; vy]). eexists. eexists. split; [vm_compute; reflexivity|]. split; reflexivity.
Qed.
Print Assumptions C40_call_refuted.
Example C40_call_refuted_ex :
  lowered (EFun Fcos [EFun Ffloor [vx]]) = Ok [(0, OLoad (LVar 0), []); (1, OCallStd F_floor, [0]); (2, OCallStd F_cos, [1])].
Proof. vm_compute; reflexivity. Qed.
