(** The expressions and names in the statements of a function. *)
From Coq Require Import String List Arith Bool Lia.
From Verif Require Import Outcome NumProofs IrModel CfgModel AstModel StmtModel.
Import ListNotations.
Open Scope nat_scope.
Open Scope list_scope.

(** All expressions are of [P], all names of temporaries of [Q] and all names of outputs of [K]. *)
Section All.
  Variable P : ast -> Prop.
  Variables Q K : string -> Prop.
  Inductive stmt_all : stmt -> Prop :=
  | sa_declare n e : Q n -> P e -> stmt_all (SDeclare n (Some e))
  | sa_open n : Q n -> stmt_all (SDeclare n None)
  | sa_assign n e : Q n -> P e -> stmt_all (SAssign n e)
  | sa_output k e : K k -> P e -> stmt_all (SOutput k e)
  | sa_return e : P e -> stmt_all (SReturn e)
  | sa_branch c l r : P c -> Forall stmt_all l -> Forall stmt_all r -> stmt_all (SBranch c l r)
  | sa_optional k l : K k -> Forall stmt_all l -> stmt_all (SOptional k l).
End All.

Ltac bnd E x Hx := match type of E with bind ?m _ = Ok _ => destruct m as [x| | | |] eqn:Hx; cbn [bind] in E; try discriminate E end.

Section Converted.
  Variable N : names.
  Variable outs : string -> option arg_type.
  Variable c : cfg.
  Notation g := (c_vals c).
  Variable P : ast -> Prop.
  Variables Q K : string -> Prop.
  Hypothesis Qv : forall v, Q (vname N v).
  Hypothesis Pv : forall v, P (AVar (vname N v)).
  Hypothesis Pe : forall d k v e, v < g_next g -> visit_value N g d k v = Ok e -> P e.
  Hypothesis Ko : forall k t, outs k = Some t -> K k.
  Hypothesis In1 : forall b v, In v (ops_of c b) -> v < g_next g.
  Hypothesis In2 : forall v a, v < g_next g -> In a (args g v) -> a < g_next g.
  Notation all := (Forall (stmt_all P Q K)).

  Lemma argument_all d k a x : a < g_next g -> visit_argument N g d (visit_value N g d k) None a = Ok x -> P x.
  Proof.
    intros L E. unfold visit_argument in E. destruct (declared d a); [injection E as <-; apply Pv|]. eapply Pe; eassumption.
  Qed.
  Lemma outputs_all fuel d last ops : (forall v, In v ops -> v < g_next g) ->
    forall ss, output_operations N outs c fuel d last ops = Ok ss -> all ss.
  Proof.
    intros I. induction ops as [|v t IH]; intros ss E; cbn in E; [injection E as <-; constructor|].
    assert (forall ss, output_operations N outs c fuel d last t = Ok ss -> all ss) as IH' by (intros; apply IH; auto; intros; apply I; now right).
    destruct (op_of g v) eqn:Ov; try (now apply IH').
    destruct (args g v) as [|a [|b r]] eqn:Ea; try discriminate. bnd E x Hx. bnd E y Hy. bnd E r Hr. injection E as <-.
    constructor; [|now apply IH'].
    assert (P x) as Px.
    { eapply argument_all; [|exact Hx]. apply (In2 v); [apply I; now left|rewrite Ea; now left]. }
    destruct (_ =? 2).
    - destruct last; [|discriminate]. injection Hy as <-. now constructor.
    - destruct (outs _) as [[]|] eqn:Eo; try discriminate. injection Hy as <-. constructor; eauto.
  Qed.
  Lemma operations_all fuel ops : (forall v, In v ops -> v < g_next g) -> forall d ss asg d2,
    block_operations N c fuel d ops = Ok (ss, asg, d2) -> all ss /\ Forall (fun a => Q (fst a) /\ P (snd a)) asg.
  Proof.
    intros I. induction ops as [|v t IH]; intros d ss asg d2 E; cbn [block_operations] in E; [injection E as <- <- <-; now split|].
    assert (forall d ss asg d2, block_operations N c fuel d t = Ok (ss, asg, d2) -> all ss /\ Forall (fun a => Q (fst a) /\ P (snd a)) asg) as IH'
      by (intros; eapply IH; eauto; intros; apply I; now right).
    assert (v < g_next g) as Lv by (apply I; now left).
    destruct (op_of g v) eqn:Ov; try (eapply IH'; eassumption);
      (bnd E phis Hp; bnd E il Hi; bnd E rhs Hr; bnd E res Hb; destruct res as [[ss1 asg1] d3]; injection E as <- <- <-;
       destruct (IH' _ _ _ _ Hb) as [S1 S2]; pose proof (Pe _ _ _ _ Lv Hr) as Pr; split;
       [apply Forall_app; split; [|assumption]; match goal with |- context [if ?b then _ else _] => destruct b end; repeat constructor; auto
       |apply Forall_app; split; [|assumption]; apply Forall_forall; intros z Hz; apply in_map_iff in Hz as (p & <- & _); cbn [fst snd];
        split; [apply Qv|match goal with |- context [if ?b then _ else _] => destruct b end; auto]]).
  Qed.
  Lemma insert_assign_in x l y : In y (insert_assign x l) -> y = x \/ In y l.
  Proof.
    induction l as [|z l IH]; cbn; [intuition|]. destruct (String.ltb _ _); cbn; [|intuition]. intros [H|H]; [tauto|]. apply IH in H. tauto.
  Qed.
  Lemma sort_assign_in l y : In y (sort_assign l) -> In y l.
  Proof. induction l as [|x l IH]; cbn; [tauto|]. intros H. apply insert_assign_in in H as [->|H]; auto. Qed.

  Lemma last_op_in b v : last_op c b = Ok v -> In v (ops_of c b).
  Proof.
    unfold last_op. destruct (rev (ops_of c b)) as [|x l] eqn:E; [discriminate|]. intros H. injection H as <-.
    apply in_rev. rewrite E. now left.
  Qed.
  Lemma process_all : forall fuel b stop d ss d', process_block N outs c fuel b stop d = Ok (ss, d') -> all ss.
  Proof.
    induction fuel as [|f IH]; intros b stop d ss d' E; cbn [process_block] in E; [discriminate|].
    assert (forall b stop d r, process_block N outs c f b stop d = Ok r -> all (fst r)) as IH' by (intros ? ? ? [? ?] H; eapply IH; exact H).
    destruct (in_set b stop); [injection E as <- <-; constructor|].
    match type of E with (if ?x then _ else _) = _ => destruct x; [discriminate|] end.
    bnd E x Hx. destruct x as [[ss1 asg] d1]. bnd E sv Hs.
    assert (all (ss1 ++ map (fun a => SAssign (fst a) (snd a)) (sort_assign asg) ++ sv)) as Here.
    { destruct (operations_all f (ops_of c b) (In1 b) _ _ _ _ Hx) as [S1 S2].
      apply Forall_app. split; [assumption|]. apply Forall_app. split; [|eapply outputs_all; [apply In1|exact Hs]].
      apply Forall_forall. intros z Hz. apply in_map_iff in Hz as (p & <- & Hp). apply sort_assign_in in Hp.
      rewrite Forall_forall in S2. destruct (S2 _ Hp). now constructor. }
    destruct (desc c b) as [|b1 ds] eqn:Eds; [injection E as <- <-; assumption|].
    bnd E v Hv. pose proof (In1 _ _ (last_op_in _ _ Hv)) as Lv.
    destruct (is_jump (op_of g v)).
    - destruct ds as [|b2 [|]]; try discriminate. bnd E m Hm. bnd E rl Hl. bnd E s Hs1. bnd E rm Hrm. injection E as <- <-.
      apply Forall_app. split; [exact Here|]. apply Forall_app. split.
      { apply Forall_forall. intros z Hz. apply in_map_iff in Hz as (p & <- & Hp). now constructor. }
      constructor; [|eapply IH'; exact Hrm]. clear Hrm.
      destruct (args g v) as [|cond r] eqn:Ea; [discriminate|].
      assert (cond < g_next g) as Lc by (apply (In2 v); [exact Lv|rewrite Ea; now left]).
      destruct (op_of g cond) eqn:Oc;
        try (bnd Hs1 rr Hrr; bnd Hs1 y Hy; injection Hs1 as <-; constructor;
             [eapply argument_all; [exact Lc|exact Hy]|eapply IH'; exact Hl|eapply IH'; exact Hrr]).
      destruct (outs _) eqn:Eo; [|discriminate]. injection Hs1 as <-. constructor; [eapply Ko; exact Eo|eapply IH'; exact Hl].
    - destruct ds; [|discriminate]. bnd E rn Hn. injection E as <- <-. apply Forall_app. split; [exact Here|eapply IH'; exact Hn].
  Qed.
  Theorem create_all fuel ss : create_ast N outs c fuel = Ok ss -> all ss.
  Proof.
    unfold create_ast. intros E. bnd E b Hb. bnd E r Hr. injection E as <-. destruct r as [ss d]. eapply process_all. exact Hr.
  Qed.
End Converted.
