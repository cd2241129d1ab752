(** Where the statements of a function return: at the end and nowhere else. *)
From Coq Require Import String List Arith Bool Lia.
From Verif Require Import Outcome NumProofs IrModel IrSpec CfgModel CfgSpec MergeProofs CountProofs ConvSpec AstModel AstSpec AstTree StmtModel StmtSpec StmtStore StmtRegion StmtRun StmtBlock StmtText RustBodySpec.
Import ListNotations.
Open Scope nat_scope.
Open Scope list_scope.

Section Returns.
Variable N : names.
Variable outs : string -> option arg_type.
Variable c : cfg.
Variables (e : nat) (all : list nat).
Hypothesis BR : branching c e all.
Notation g := (c_vals c).
Notation next := (desc c).

Definition returns_last (ss : list stmt) : Prop :=
  exists l, Forall no_return l /\ (ss = l \/ exists x, ss = l ++ [SReturn x]).
Definition ends (k : option nat) (ss : list stmt) : Prop := match k with Some _ => Forall no_return ss | None => returns_last ss end.
Lemma ends_app k l ss : Forall no_return l -> ends k ss -> ends k (l ++ ss).
Proof.
  intros F. destruct k; cbn; [intros G; now apply Forall_app|]. intros (l' & F' & H). exists (l ++ l'). split; [now apply Forall_app|].
  destruct H as [->|(x & ->)]; [now left|right; exists x; apply app_assoc].
Qed.
Lemma operations_no_return fuel ops : forall d ss asg d2, block_operations N c fuel d ops = Ok (ss, asg, d2) -> Forall no_return ss.
Proof.
  induction ops as [|v t IH]; intros d ss asg d2 E; cbn [block_operations] in E; [injection E as <- <- <-; constructor|].
  destruct (op_of g v) eqn:Ov; try (eapply IH; eassumption);
    (bnd E phis Hp; bnd E il Hi; bnd E rhs Hr; bnd E res Hb; destruct res as [[ss1 asg1] d3]; injection E as <- <- <-;
     apply Forall_app; split; [match goal with |- context [if ?b then _ else _] => destruct b end; repeat constructor|eapply IH; exact Hb]).
Qed.
Lemma outputs_none fuel d last ops : (forall w u k, In w ops -> op_of g w <> OSave u k) ->
  forall ss, output_operations N outs c fuel d last ops = Ok ss -> ss = [].
Proof.
  induction ops as [|v t IH]; intros H ss E; cbn in E; [now injection E as <-|].
  assert (forall ss, output_operations N outs c fuel d last t = Ok ss -> ss = []) as IH' by (intros s; apply IH; intros w u k I; apply H; now right).
  destruct (op_of g v) eqn:Ov; try (now apply IH'). exfalso. exact (H _ _ _ (or_introl eq_refl) Ov).
Qed.
Lemma outputs_inner fuel d ops : forall ss, output_operations N outs c fuel d false ops = Ok ss -> Forall no_return ss.
Proof.
  induction ops as [|v t IH]; intros ss E; cbn in E; [injection E as <-; constructor|].
  destruct (op_of g v) eqn:Ov; try (now apply IH).
  destruct (args g v) as [|a [|]]; try discriminate. bnd E x Hx. bnd E y Hy. bnd E r0 Hr. injection E as <-. constructor; [|now apply IH].
  destruct (_ =? 2); [discriminate|]. destruct (outs _) as [[]|]; try discriminate. injection Hy as <-. constructor.
Qed.
Lemma outputs_last fuel d ops : (forall v key l1 l2, ops = l1 ++ v :: l2 -> op_of g v = OSave 2 key -> forall w u k, In w l2 -> op_of g w <> OSave u k) ->
  forall ss, output_operations N outs c fuel d true ops = Ok ss -> returns_last ss.
Proof.
  induction ops as [|v t IH]; intros H ss E; cbn in E; [injection E as <-; exists []; split; [constructor|now left]|].
  assert (forall ss, output_operations N outs c fuel d true t = Ok ss -> returns_last ss) as IH'.
  { apply IH. intros w key l1 l2 -> Ow. apply (H w key (v :: l1) l2); auto. }
  destruct (op_of g v) eqn:Ov; try (now apply IH').
  destruct (args g v) as [|a [|]]; try discriminate. bnd E x Hx. bnd E y Hy. bnd E r0 Hr. injection E as <-.
  destruct (_ =? 2) eqn:E2.
  - injection Hy as <-. apply Nat.eqb_eq in E2. subst.
    rewrite (outputs_none _ _ _ _ (H v _ [] t eq_refl Ov) _ Hr). exists []. split; [constructor|]. right. now exists x.
  - destruct (outs _) as [[]|]; try discriminate. injection Hy as <-.
    apply (ends_app None [_] r0); [repeat constructor|]. now apply IH'.
Qed.
Lemma assigns_no_return l : Forall no_return (map (fun a : string * ast => SAssign (fst a) (snd a)) l).
Proof. apply Forall_forall. intros x H. apply in_map_iff in H as (p & <- & _). constructor. Qed.

Lemma returns_region b k bs : region next b k bs -> forall f stop d ss d', (forall a, In a bs -> ~ In a stop) -> (forall m, k = Some m -> In m stop) ->
  process_block N outs c f b stop d = Ok (ss, d') -> ends k ss.
Proof.
  induction 1 as [m|b E|b x k bs E H IH Nb Nk|b l rr j k bl br bj E Hl IHl Hr IHr Hj IHj Inj ND Nm]; intros f stop d ss d' Hs Hk Pr; (destruct f as [|f]; [discriminate|]); cbn [process_block] in Pr.
  - specialize (Hk m eq_refl). apply in_set_spec in Hk. rewrite Hk in Pr. injection Pr as <- <-. constructor.
  - rewrite in_set_false in Pr by (apply Hs; now left). rewrite E in Pr. bnd Pr x Hx. destruct x as [[s1 asg] d1]. bnd Pr sv Hv. injection Pr as <- <-.
    apply ends_app; [eapply operations_no_return; exact Hx|]. apply ends_app; [apply assigns_no_return|].
    eapply outputs_last; [|exact Hv]. exact (br_return _ _ _ BR b).
  - rewrite in_set_false in Pr by (apply Hs; now left). rewrite E in Pr.
    destruct (match ops_of c b with [] => true | _ => false end); [discriminate|].
    bnd Pr q Hq. destruct q as [[s1 asg] d1]. bnd Pr sv Hv. bnd Pr v Hl.
    destruct (is_jump _); [discriminate|]. bnd Pr rn Hn. destruct rn as [sn dn]. injection Pr as <- <-. cbn [fst snd].
    apply ends_app.
    + apply Forall_app. split; [eapply operations_no_return; exact Hq|]. apply Forall_app. split; [apply assigns_no_return|eapply outputs_inner; exact Hv].
    + apply (IH f stop d1 sn dn); auto. intros a Ha. apply Hs. now right.
  - rewrite in_set_false in Pr by (apply Hs; now left). rewrite E in Pr.
    destruct (match ops_of c b with [] => true | _ => false end); [discriminate|].
    bnd Pr q Hq. destruct q as [[s1 asg] d1]. bnd Pr sv Hv. bnd Pr v Hla. destruct (is_jump _); [|discriminate].
    pose proof (region_joins next b l rr j bl br bj E Hl Hr ND Inj (br_acyclic _ _ _ BR)) as Jn.
    destruct (find_merge_sound next l rr j Jn (S f)) as [Em|Em]; rewrite Em in Pr; [discriminate|]. cbn [bind] in Pr.
    bnd Pr rl Hrl. bnd Pr s Hst. bnd Pr rm Hrm. destruct rl as [sl dl], s as [sb db], rm as [sj dj]. cbn [fst snd] in *. injection Pr as <- <-.
    destruct (parts b bl br bj ND) as ((B1 & B2 & B3) & P1 & P2 & P3).
    assert (Njs : ~ In j stop) by (apply Hs; right; rewrite !in_app_iff; auto).
    assert (Hs1 : forall y, In y (insert_set j stop) <-> y = j \/ In y stop).
    { intros y. unfold insert_set. rewrite in_set_false by auto. cbn [In]. intuition congruence. }
    assert (Gl : Forall no_return sl).
    { apply (IHl f (insert_set j stop) (phi_declarations c j ++ d1) sl dl); auto.
      - intros a Ha I. apply Hs1 in I. destruct I as [->|I]; [exact (P2 j Ha Inj)|]. apply (Hs a); auto. right. rewrite !in_app_iff. auto.
      - intros m Em'. injection Em' as <-. apply Hs1. now left. }
    assert (Gr : forall sr dr, process_block N outs c f rr (insert_set j stop) dl = Ok (sr, dr) -> Forall no_return sr).
    { intros sr dr Er. apply (IHr f (insert_set j stop) dl sr dr); auto.
      - intros a Ha I. apply Hs1 in I. destruct I as [->|I]; [exact (P3 j Ha Inj)|]. apply (Hs a); auto. right. rewrite !in_app_iff. auto.
      - intros m Em'. injection Em' as <-. apply Hs1. now left. }
    assert (Gs : no_return sb).
    { destruct (args g v) as [|cond ?]; [discriminate|].
      destruct (op_of g cond); try (bnd Hst rr0 Hrr; bnd Hst y Hy; destruct rr0 as [sr dr]; injection Hst as <- <-; constructor; [assumption|]; now apply (Gr sr dr)).
      destruct (outs _); [|discriminate]. injection Hst as <- _. now constructor. }
    apply ends_app.
    { apply Forall_app. split; [eapply operations_no_return; exact Hq|]. apply Forall_app. split; [apply assigns_no_return|eapply outputs_inner; exact Hv]. }
    apply ends_app.
    { apply Forall_forall. intros z Hz. apply in_map_iff in Hz as (p & <- & _). constructor. }
    apply (ends_app k [sb] sj); [now repeat constructor|].
    rewrite erase_insert in Hrm by auto. apply (IHj f stop db sj dj); auto. intros a Ha. apply Hs. right. rewrite !in_app_iff. auto.
Qed.
Theorem create_returns fuel ss : first_block c = Ok e -> create_ast N outs c fuel = Ok ss -> returns_last ss.
Proof.
  intros Fb E. unfold create_ast in E. rewrite Fb in E. cbn [bind] in E. bnd E r0 Hr. injection E as <-. destruct r0 as [ss d].
  apply (returns_region e None all (br_region _ _ _ BR) fuel [] [] ss d); [intros a _ []|discriminate|exact Hr].
Qed.
End Returns.
