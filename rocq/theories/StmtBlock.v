(** The statements of a block do what its operations do. *)
From Coq Require Import String List Arith ZArith Bool Lia.
From Verif Require Import Outcome NumProofs IrModel IrSpec CfgModel CfgSpec MergeProofs ConvSpec AstModel AstSpec AstTree StmtModel StmtSpec StmtStore StmtRegion StmtRun.
Import ListNotations.
Open Scope nat_scope.
Open Scope list_scope.

Lemma declared_cons d v w : declared (v :: d) w = (w =? v) || declared d w.
Proof. reflexivity. Qed.
Lemma declared_app d d' w : declared (d ++ d') w = declared d w || declared d' w.
Proof. unfold declared. apply existsb_app. Qed.
Lemma declared_in d w : declared d w = true <-> In w d.
Proof. unfold declared. rewrite existsb_exists. split; [intros (x & H & E); apply Nat.eqb_eq in E; subst; exact H|intros H; exists w; split; auto; apply Nat.eqb_refl]. Qed.
Lemma insert_assign_in y l x : In x (insert_assign y l) <-> x = y \/ In x l.
Proof. induction l as [|z t IH]; cbn [insert_assign]; [cbn; intuition congruence|]. destruct (String.ltb (fst z) (fst y)); cbn [In] in *; [rewrite IH|]; intuition congruence. Qed.
Lemma sort_assign_in l x : In x (sort_assign l) <-> In x l.
Proof. induction l as [|y t IH]; cbn [sort_assign fold_right]; [tauto|]. fold (sort_assign t). rewrite insert_assign_in, IH. cbn [In]. intuition congruence. Qed.

Section Block.
Variable A : algebra.
Variable Q : selecting A.
Variable M : meaning (D A).
Variable N : names.
Variable outs : string -> option arg_type.
Variable outer : string -> bool.
Variable c : cfg.
Variables (e : nat) (all : list nat).
Hypothesis BR : branching c e all.
Hypothesis EX : expresses A M N c.
Hypothesis SP : separate N outer c.
Variable Ev : env A.
Notation g := (c_vals c).
Notation next := (desc c).
Notation vn := (variable_name (n_width N)).
Notation r := (StmtRun.r A Ev).
Notation run_all := (do_all A Q M outer).

Lemma do_all_app l1 l2 st : run_all (l1 ++ l2) st =
  match run_all l1 st with
  | Some (false, st1, o1) => match run_all l2 st1 with Some (fin, st2, o2) => Some (fin, st2, o1 ++ o2) | None => None end
  | x => x
  end.
Proof.
  revert st. induction l1 as [|x l1 IH]; intros st; cbn [app do_all].
  - destruct (run_all l2 st) as [[[fin st2] o2]|]; reflexivity.
  - destruct (do_stmt A Q M outer x st) as [[[[|] st1] o1]|]; auto. rewrite IH.
    destruct (run_all l1 st1) as [[[[|] st2] o2]|]; auto. destruct (run_all l2 st2) as [[[fin st3] o3]|]; auto. now rewrite app_assoc.
Qed.

Variables (U K : list nat) (t : nat) (from : option nat).
Hypothesis tU : ~ In t U.
Hypothesis tK : ~ In t K.
Hypothesis KU : forall m, In m K -> ~ In m U.
Hypothesis Gt : good A c Ev from t.
Hypothesis UV : forall u v, In u U -> In v (ops_of c u) -> op_of g v <> OPhi -> r v = sem A (op_of g v) (map r (args g v)).
Hypothesis UC : forall u v a, In u U -> In v (ops_of c u) -> op_of g v <> OPhi -> In a (args g v) -> exists u', In u' U /\ In a (ops_of c u').
Hypothesis DM : forall u, ~ In u U -> u <> t -> avoids next u e t.
Hypothesis EK : forall y, next t = [y] -> has_phi c y -> hd_error K = Some y.
Hypothesis ST : stacked c K.

Definition avail (l : list name) (v : name) : Prop := (exists u, In u U /\ In v (ops_of c u)) \/ In v l.

Lemma avail_mono l l' v : avail l v -> avail (l ++ l') v.
Proof. intros [H|H]; [now left|]. right. rewrite in_app_iff. auto. Qed.
Lemma operand_avail l1 v l2 a : ops_of c t = l1 ++ v :: l2 -> op_of g v <> OPhi -> In a (args g v) -> avail l1 a.
Proof.
  intros E Np Ia. assert (Kv : In v (ops_of c t)) by (rewrite E, in_app_iff; right; now left).
  destruct (br_defined _ _ _ BR t v a Kv Np Ia) as (u & Ka & Du & Bf). destruct (Nat.eq_dec u t) as [->|Nu].
  - right. specialize (Bf eq_refl). rewrite E in Bf. pose proof (br_nodup _ _ _ BR t) as ND. rewrite E in ND. now apply before_prefix with l2 v.
  - left. destruct (in_dec Nat.eq_dec u U) as [I|I]; [eauto|]. exfalso. destruct (avoids_leads next u e t (DM u I Nu)) as (p & Lp & Np'). now apply Np', Du.
Qed.
Lemma avail_block l1 l2 v : ops_of c t = l1 ++ l2 -> avail l1 v -> exists t, In v (ops_of c t).
Proof. intros E [(u & _ & H)|H]; [eauto|]. exists t. rewrite E, in_app_iff. auto. Qed.
Lemma avail_closed l1 l2 v a : ops_of c t = l1 ++ l2 -> avail l1 v -> op_of g v <> OPhi -> In a (args g v) -> avail l1 a.
Proof.
  intros E [(u & Hu & H)|H] Np Ia; [left; now apply (UC u v a)|]. apply in_split in H. destruct H as (x1 & x2 & ->).
  rewrite <- app_assoc in E. apply (avail_mono x1 (v :: x2)). now apply (operand_avail x1 v (x2 ++ l2)).
Qed.
Lemma avail_value l1 l2 v : ops_of c t = l1 ++ l2 -> avail l1 v -> op_of g v <> OPhi -> r v = sem A (op_of g v) (map r (args g v)).
Proof.
  intros E [(u & Hu & H)|H] Np; [now apply (UV u v)|]. apply (good_value A c Ev from t v Gt); auto. rewrite E, in_app_iff. auto.
Qed.
Lemma next_ready l1 v l2 : ops_of c t = l1 ++ v :: l2 -> ready A c r (avail l1) v.
Proof.
  intros E. assert (Kv : In v (ops_of c t)) by (rewrite E, in_app_iff; right; now left). split; [eauto|]. split.
  - intros Np a Ia. now apply (operand_avail l1 v l2).
  - intros Np. now apply (good_value A c Ev from t v Gt).
Qed.
Lemma not_avail l1 v l2 : ops_of c t = l1 ++ v :: l2 -> ~ avail l1 v.
Proof.
  intros E. assert (Kv : In v (ops_of c t)) by (rewrite E, in_app_iff; right; now left). intros [(u & Hu & H)|H].
  - rewrite (block_unique c e all BR u t v H Kv) in Hu. contradiction.
  - pose proof (br_nodup _ _ _ BR t) as ND. rewrite E in ND. apply NoDup_remove_2 in ND. apply ND. rewrite in_app_iff. auto.
Qed.
Lemma pending_not_avail l1 l2 p u : ops_of c t = l1 ++ l2 -> In u K -> In p (ops_of c u) -> ~ avail l1 p.
Proof.
  intros E Hu Kp [(u' & Hu' & H)|H].
  - rewrite (block_unique c e all BR u' u p H Kp) in Hu'. now apply (KU u).
  - assert (H' : In p (ops_of c t)) by (rewrite E, in_app_iff; auto). rewrite (block_unique c e all BR u t p Kp H') in Hu. contradiction.
Qed.

Record loop (l1 : list name) (d : list name) (st : store A) : Prop := {
  lp_temp : forall v, avail l1 v -> declared d v = true -> look A st (vn v) = Some (Some (r v));
  lp_phi : forall v, avail l1 v -> declares_phi c v = true -> declared d v = true;
  lp_keys : forall s, In s (keys st) -> exists v u, s = vn v /\ In v (ops_of c u) /\ (In u U \/ In v l1 \/ (In u (t :: K) /\ op_of g v = OPhi));
  lp_nodup : NoDup (keys st) }.
Definition phis_set (d : list name) (st : store A) : Prop := forall v, In v (ops_of c t) -> declares_phi c v = true -> declared d v = true /\ look A st (vn v) = Some (Some (r v)).
Definition fits (d : list name) (st : store A) : Prop :=
  (forall v, avail (ops_of c t) v -> declared d v = true -> look A st (vn v) = Some (Some (r v))) /\ (forall s, outer s = true -> look A st s = None).

Lemma named_outer (st : store A) : (forall s, In s (keys st) -> exists v u, s = vn v /\ In v (ops_of c u)) -> forall s, outer s = true -> look A st s = None.
Proof. intros H s O. apply look_none. intros I. destruct (H s I) as (v & u & -> & Kv). rewrite (sp_temp _ _ _ SP u v Kv) in O. discriminate. Qed.
Lemma loop_outer l1 d st : loop l1 d st -> forall s, outer s = true -> look A st s = None.
Proof. intros L. apply named_outer. intros s I. destruct (lp_keys _ _ _ L s I) as (v & u & E & Kv & _). eauto. Qed.
Lemma declares_is_phi v : declares_phi c v = true -> op_of g v = OPhi.
Proof. unfold declares_phi. intros H. apply andb_prop in H. apply is_phi_spec. tauto. Qed.

(** Looking up operands of the rest of the block in [st]. *)
Lemma loop_phi l1 d : (forall v, avail l1 v -> declares_phi c v = true -> declared d v = true) ->
  forall d', (forall v, declared d v = true -> declared d' v = true) ->
  forall v w, avail l1 v -> op_of g v = OPhi -> declared d' v = false -> In v (args g w) -> op_of g w = OPhi.
Proof.
  intros H d' Mo v w Lv Op Dv Iw. destruct (is_phi (op_of g w)) eqn:Ew; [now apply is_phi_spec|]. exfalso.
  assert (Nw : op_of g w <> OPhi) by (intros X; apply is_phi_spec in X; congruence).
  pose proof (H v Lv (declares_read c e all BR v w Op Nw Iw)) as X. apply Mo in X. congruence.
Qed.

Lemma loop_pass l1 v l2 d st : ops_of c t = l1 ++ v :: l2 -> loop l1 d st -> phis_set d st -> (declared d v = true -> declares_phi c v = true) -> loop (l1 ++ [v]) d st.
Proof.
  intros E L P Cl. assert (Kv : In v (ops_of c t)) by (rewrite E, in_app_iff; right; now left).
  assert (Sp : forall w, avail (l1 ++ [v]) w -> avail l1 w \/ w = v).
  { intros w [H|H]; [left; now left|]. rewrite in_app_iff in H. destruct H as [H|[<-|[]]]; auto. left. now right. }
  split.
  - intros w Lw Dw. destruct (Sp w Lw) as [Lw'| ->]; [now apply (lp_temp _ _ _ L)|]. apply (P v Kv). now apply Cl.
  - intros w Lw Dw. destruct (Sp w Lw) as [Lw'| ->]; [now apply (lp_phi _ _ _ L)|]. now apply (P v Kv).
  - intros s I. destruct (lp_keys _ _ _ L s I) as (w & u & -> & Kw & H). exists w, u. split; auto. split; auto. rewrite in_app_iff. tauto.
  - apply (lp_nodup _ _ _ L).
Qed.

Definition asg_ok (d' : list name) (l2 : list name) (asg : list (string * ast)) : Prop :=
  (forall s rhs, In (s, rhs) asg -> exists x p, In x l2 /\ control (op_of g x) = false /\ feeds c x p /\ declares_phi c p = true /\ s = vn p /\
    forall st, fits d' st -> eval A M outer st rhs = Some (r x)) /\
  (forall x p, In x l2 -> control (op_of g x) = false -> feeds c x p -> declares_phi c p = true -> exists rhs, In (vn p, rhs) asg).

Lemma loop_run fuel : forall l2 l1 d st ss asg d', ops_of c t = l1 ++ l2 -> loop l1 d st -> phis_set d st ->
  (forall v, In v l2 -> declared d v = true -> declares_phi c v = true) ->
  block_operations N c fuel d l2 = Ok (ss, asg, d') ->
  exists st', run_all ss st = Some (false, st', []) /\ loop (l1 ++ l2) d' st' /\ extends_store st st' /\
    (forall s, In s (keys st) -> look A st' s = look A st s) /\
    (forall v, declared d v = true -> declared d' v = true) /\
    (forall v, declared d' v = true -> declared d v = true \/ (In v l2 /\ op_of g v <> OPhi)) /\ asg_ok d' l2 asg.
Proof.
  induction l2 as [|v l2 IH]; intros l1 d st ss asg d' El L P Cl B.
  - cbn in B. injection B as <- <- <-. exists st. rewrite app_nil_r. split; [reflexivity|]. split; auto. split; [apply ext_refl, (lp_nodup _ _ _ L)|].
    split; auto. split; auto. split; auto. split; [intros s rhs []|intros x p []].
  - assert (El' : ops_of c t = (l1 ++ [v]) ++ l2) by now rewrite <- app_assoc.
    assert (Kv : In v (ops_of c t)) by (rewrite El, in_app_iff; right; now left).
    assert (Clv : declared d v = true -> declares_phi c v = true) by (apply Cl; now left).
    assert (Nv : ~ In v l2) by (pose proof (br_nodup _ _ _ BR t) as ND; rewrite El in ND; apply NoDup_remove_2 in ND; rewrite in_app_iff in ND; tauto).
    destruct (control (op_of g v)) eqn:Co.
    + assert (B' : block_operations N c fuel d l2 = Ok (ss, asg, d')) by (cbn [block_operations] in B; destruct (op_of g v); try discriminate Co; exact B).
      destruct (IH (l1 ++ [v]) d st ss asg d' El') as (st' & R & L' & X & Lk & Mo & Nw & (A1 & A2)); auto.
      { now apply loop_pass with l2. }
      { intros w Hw. apply Cl. now right. }
      exists st'. rewrite <- app_assoc in L'. split; auto. split; auto. split; auto. split; auto. split; auto. split; [|split].
      * intros w Dw. destruct (Nw w Dw) as [|[H1 H2]]; auto. right. split; auto. now right.
      * intros s rhs I. destruct (A1 s rhs I) as (x & p & Hx & rest). exists x, p. split; auto. now right.
      * intros x p [<-|Hx] Cx; [congruence|]. now apply A2.
    + assert (Np : op_of g v <> OPhi) by (intros X; rewrite X in Co; discriminate).
      assert (Nd : declared d v = false) by (apply not_true_iff_false; intros X; apply Clv, declares_is_phi in X; contradiction).
      assert (exists phis inl rhs needs ss1 asg1, conditional_outputs fuel g v = Ok phis /\ should_inline_constant fuel g v = Ok inl /\
         visit_value N g (if needs : bool then v :: d else d) fuel v = Ok rhs /\ block_operations N c fuel (if needs then v :: d else d) l2 = Ok (ss1, asg1, d') /\
         ss = (if needs then [SDeclare (vn v) (Some rhs)] else []) ++ ss1 /\ asg = map (fun p => (vn p, if needs then AVar (vn v) else rhs)) phis ++ asg1)
        as (phis & inl & rhs & needs & ss1 & asg1 & Ephi & _ & Erhs & Eb & -> & ->).
      { cbn [block_operations] in B. destruct (conditional_outputs fuel g v) as [phis| | | |] eqn:E1;
          [|destruct (op_of g v); discriminate|destruct (op_of g v); discriminate|destruct (op_of g v); discriminate|destruct (op_of g v); discriminate].
        destruct (should_inline_constant fuel g v) as [inl| | | |] eqn:E2;
          [|destruct (op_of g v); discriminate|destruct (op_of g v); discriminate|destruct (op_of g v); discriminate|destruct (op_of g v); discriminate].
        cbn [bind] in B.
        set (needs := is_argument_read (op_of g v) || (negb inl && ((1 <? length (filter (fun x => negb (is_phi (op_of g x))) (cons_of g v))) || (1 <? length phis)))).
        assert (B' : bind (visit_value N g (if needs then v :: d else d) fuel v) (fun rhs => bind (block_operations N c fuel (if needs then v :: d else d) l2)
           (fun r => let '(ss, asg, d2) := r in Ok ((if needs then [SDeclare (vn v) (Some rhs)] else []) ++ ss, map (fun p => (vn p, if needs then AVar (vn v) else rhs)) phis ++ asg, d2))) = Ok (ss, asg, d')).
        { unfold needs. destruct (op_of g v); try discriminate Co; exact B. }
        clear B. clearbody needs. binv B'. binv B'. destruct x0 as [[ss1 asg1] d2]. injection B' as <- <- <-. exists phis, inl, x, needs, ss1, asg1. auto 10. }
      set (d1 := if needs then v :: d else d) in *.
      set (st1 := if needs then (vn v, Some (r v)) :: st else st).
      assert (D1 : forall w, declared d w = true -> declared d1 w = true) by (intros w; unfold d1; destruct needs; auto; rewrite declared_cons; intros ->; apply orb_true_r).
      assert (D1' : forall w, w <> v -> declared d1 w = true -> declared d w = true).
      { intros w Nw. unfold d1; destruct needs; auto. rewrite declared_cons. intros H. apply orb_prop in H. destruct H as [H|]; auto. apply Nat.eqb_eq in H. contradiction. }
      assert (Nav : forall w, avail l1 w -> w <> v) by (intros w Lw ->; now apply (not_avail l1 v l2 El)).
      assert (Nk : ~ In (vn v) (keys st)).
      { intros I. destruct (lp_keys _ _ _ L _ I) as (w & u & Ew & Kw & H). apply variable_name_inj in Ew. subst w. pose proof (block_unique c e all BR u t v Kw Kv) as ->.
        destruct H as [H|[H|[_ H]]]; auto. exact (not_avail l1 v l2 El (or_intror H)). }
      assert (Evr : forall st0 d0, (forall w, declared d0 w = true -> declared d1 w = true) -> (forall w, declared d w = true -> declared d0 w = true) -> d0 = d1 ->
                (forall w, avail l1 w -> declared d0 w = true -> look A st0 (vn w) = Some (Some (r w))) ->
                (forall s, outer s = true -> look A st0 s = None) -> eval A M outer st0 rhs = Some (r v)).
      { intros st0 d0 _ Md -> Ht Ho. apply (ready_eval A M N outer c EX SP r (avail l1)) with (d := d1) (k := fuel); auto.
        - intros w Lw. now apply (avail_block l1 (v :: l2)).
        - intros w a Lw. now apply (avail_closed l1 (v :: l2)).
        - intros w Lw. now apply (avail_value l1 (v :: l2)).
        - apply (loop_phi l1 d); auto. apply (lp_phi _ _ _ L).
        - now apply (next_ready l1 v l2). }
      assert (Rst : run_all (if needs then [SDeclare (vn v) (Some rhs)] else []) st = Some (false, st1, [])).
      { unfold st1. destruct needs; [|reflexivity]. cbn [do_all do_stmt]. unfold in_scope. pose proof Nk as Nk'. apply look_none in Nk'. rewrite Nk'. rewrite (sp_temp _ _ _ SP t v Kv).
        rewrite (Evr st d1); auto. - intros w Lw Dw. apply (lp_temp _ _ _ L); auto. - now apply (loop_outer l1 d). }
      assert (Lk1 : forall s, In s (keys st) -> look A st1 s = look A st s).
      { intros s I. unfold st1. destruct needs; auto. cbn [look]. destruct (String.eqb_spec (vn v) s) as [<-|]; auto. contradiction. }
      assert (Ks : forall w x, look A st (vn w) = Some x -> look A st1 (vn w) = Some x).
      { intros w x H. rewrite Lk1; auto. destruct (in_dec string_dec (vn w) (keys st)) as [|X]; auto. apply look_none in X. congruence. }
      assert (L1 : loop (l1 ++ [v]) d1 st1).
      { split.
        - intros w Lw Dw. destruct (Nat.eq_dec w v) as [->|Nw].
          + unfold d1 in Dw. unfold st1. destruct needs; [cbn [look]; now rewrite String.eqb_refl|congruence].
          + apply Ks. apply (lp_temp _ _ _ L); auto. destruct Lw as [|Lw]; [now left|]. right. rewrite in_app_iff in Lw. destruct Lw as [|[|[]]]; congruence.
        - intros w Lw Dw. apply D1. destruct (Nat.eq_dec w v) as [->|Nw]; [apply declares_is_phi in Dw; contradiction|].
          apply (lp_phi _ _ _ L); auto. destruct Lw as [|Lw]; [now left|]. right. rewrite in_app_iff in Lw. destruct Lw as [|[|[]]]; congruence.
        - intros s I. assert (In s (keys st) \/ s = vn v) as [I'| ->].
          { unfold st1 in I. destruct needs; auto. destruct I as [<-|I]; auto. }
          + destruct (lp_keys _ _ _ L s I') as (w & u & -> & Kw & H). exists w, u. split; auto. split; auto. rewrite in_app_iff. tauto.
          + exists v, t. split; auto. split; auto. right. left. rewrite in_app_iff. right. now left.
        - unfold st1. destruct needs; [|apply (lp_nodup _ _ _ L)]. cbn. constructor; auto. apply (lp_nodup _ _ _ L). }
      destruct (IH (l1 ++ [v]) d1 st1 ss1 asg1 d' El' L1) as (st' & R & L' & X & Lk & Mo & Nw & (A1 & A2)); auto.
      { intros w Kw Dw. destruct (P w Kw Dw) as [P1 P2]. split; auto. }
      { intros w Hw Dw. apply Cl; [now right|]. apply D1'; auto. congruence. }
      exists st'. rewrite <- app_assoc in L'. rewrite do_all_app, Rst, R. split; auto. split; auto. split.
      { apply ext_trans with st1; auto. unfold st1. destruct needs; [apply ext_cons; auto; apply (lp_nodup _ _ _ L)|apply ext_refl, (lp_nodup _ _ _ L)]. }
      split. { intros s I. rewrite Lk; [now apply Lk1|]. unfold st1. destruct needs; auto. now right. }
      split; auto. split. { intros w Dw. destruct (Nw w Dw) as [H|[H1 H2]]; [|right; split; auto; now right]. destruct (Nat.eq_dec w v) as [->|]; [right; split; auto; now left|]. left. now apply D1'. }
      split.
      * intros s e0 I. rewrite in_app_iff in I. destruct I as [I|I].
        -- apply in_map_iff in I. destruct I as (p & Ep & Ip). injection Ep as <- <-. apply (conditional_outputs_spec c e all BR fuel v phis Ephi p) in Ip. destruct Ip as [Dp Hp].
           exists v, p. split; [now left|]. split; auto. split; [destruct Hp as [->|]; auto; apply declares_is_phi in Dp; contradiction|]. split; auto. split; auto.
           intros st0 [F1 F2]. destruct needs.
           ++ apply (temp_eval A M N outer r (avail (ops_of c t)) d' st0 F1).
              ** right. auto.
              ** apply Mo. unfold d1. rewrite declared_cons, Nat.eqb_refl. reflexivity.
           ++ apply (Evr st0 d1); auto. intros w Lw Dw. apply F1; auto. rewrite El. now apply avail_mono.
        -- destruct (A1 s e0 I) as (x & p & Hx & rest). exists x, p. split; auto. now right.
      * intros x p [<-|Hx] Cx Fx Dx.
        -- assert (In p phis) as Ip by (apply (conditional_outputs_spec c e all BR fuel v phis Ephi p); auto).
           eexists. rewrite in_app_iff. left. apply in_map_iff. exists p. split; [reflexivity|auto].
        -- destruct (A2 x p Hx Cx Fx Dx) as (rhs0 & I). exists rhs0. rewrite in_app_iff. auto.
Qed.
Lemma fits_put d st p u s0 x : fits d st -> In u K -> In p (ops_of c u) -> s0 = vn p -> fits d (put A st s0 x).
Proof.
  intros [F1 F2] Hu Kp ->. split.
  - intros v Lv Dv. rewrite put_other; auto. intros E. apply variable_name_inj in E. subst v. apply (pending_not_avail (ops_of c t) [] p u); auto. now rewrite app_nil_r.
  - intros s O. specialize (F2 s O). apply look_none in F2. apply look_none. now rewrite put_keys.
Qed.
Lemma assigns_run d : forall l st, fits d st ->
  (forall s rhs, In (s, rhs) l -> exists x p, In x (ops_of c t) /\ feeds c x p /\ declares_phi c p = true /\ s = vn p /\
    forall st, fits d st -> eval A M outer st rhs = Some (r x)) ->
  (forall m p, In m K -> In p (ops_of c m) -> declares_phi c p = true -> In (vn p) (keys st)) ->
  exists st', run_all (map (fun a => SAssign (fst a) (snd a)) l) st = Some (false, st', []) /\ keys st' = keys st /\ fits d st' /\
    (forall s, ~ In s (map fst l) -> look A st' s = look A st s) /\
    (forall p rhs x, In (vn p, rhs) l -> In x (ops_of c t) -> feeds c x p -> look A st' (vn p) = Some (Some (r x))).
Proof.
  induction l as [|[s rhs] l IH]; intros st F H P.
  - exists st. split; [reflexivity|]. split; auto. split; auto. split; auto. intros p rhs x [].
  - destruct (H s rhs (or_introl eq_refl)) as (x & p & Kx & Fx & Dp & -> & Er).
    destruct (feeds_stack c e all BR x p Fx t K Kx EK ST) as (u & Hu & Kp).
    pose proof (P u p Hu Kp Dp) as Ik. destruct (look_some st (vn p) Ik) as (y & Ey).
    destruct (IH (put A st (vn p) (r x))) as (st' & R & Ks & F' & L1 & L2).
    { now apply fits_put with p u. }
    { intros s' rhs' I. apply H. now right. }
    { intros m q. rewrite put_keys. apply P. }
    exists st'. split; [|split; [|split; [|split]]]; auto.
    + cbn [map fst snd]. change (run_all (SAssign (vn p) rhs :: map (fun a => SAssign (fst a) (snd a)) l) st) with
        (match do_stmt A Q M outer (SAssign (vn p) rhs) st with
         | Some (false, st1, o1) => match run_all (map (fun a => SAssign (fst a) (snd a)) l) st1 with Some (fin, st2, o2) => Some (fin, st2, o1 ++ o2) | None => None end
         | x => x end). cbn [do_stmt]. rewrite Ey, (Er st F), R. reflexivity.
    + now rewrite Ks, put_keys.
    + intros s' Hs. cbn [map In fst] in Hs. rewrite L1 by tauto. apply put_other. tauto.
    + intros q rhs' x' I Kx' Fx'. destruct (in_dec string_dec (vn q) (map fst l)) as [Il|Nl].
      * apply in_map_iff in Il. destruct Il as ([s1 rhs1] & Es & Il). cbn in Es. subst s1. now apply (L2 q rhs1 x').
      * destruct I as [I|I]; [|exfalso; apply Nl; apply in_map_iff; now exists (vn q, rhs')]. apply (f_equal fst) in I. cbn [fst] in I. apply variable_name_inj in I. subst q.
        rewrite L1 by auto. rewrite (feeds_inj c e all BR x p Fx x' t Kx Kx' Fx'). now apply put_same.
Qed.

Lemma no_saves fuel d last l : (forall w u k, In w l -> op_of g w <> OSave u k) ->
  output_operations N outs c fuel d last l = Ok [] /\ flat_map (fun v => handed A (op_of g v) (r v)) l = [].
Proof.
  induction l as [|v l IH]; intros H; [split; reflexivity|]. destruct IH as [I1 I2]; [intros w u k I; apply H; now right|]. cbn [output_operations flat_map].
  pose proof (fun u k => H v u k (or_introl eq_refl)) as Nv. rewrite I1, I2. destruct (op_of g v); auto; exfalso; eapply Nv; reflexivity.
Qed.
Lemma outputs_run fuel d last st : (forall v, avail (ops_of c t) v -> declares_phi c v = true -> declared d v = true) -> fits d st -> forall l2 l1 saves, ops_of c t = l1 ++ l2 -> output_operations N outs c fuel d last l2 = Ok saves ->
  exists fin, run_all saves st = Some (fin, st, map (as_output A) (flat_map (fun v => handed A (op_of g v) (r v)) l2)) /\ (last = false -> fin = false).
Proof.
  intros Lp [F1 F2]. induction l2 as [|v l2 IH]; intros l1 saves El H.
  - cbn in H. injection H as <-. exists false. auto.
  - assert (El' : ops_of c t = (l1 ++ [v]) ++ l2) by now rewrite <- app_assoc.
    assert (Kv : In v (ops_of c t)) by (rewrite El, in_app_iff; right; now left).
    cbn [output_operations flat_map] in *. destruct (op_of g v) as [ | | | | | | | | | | | | | | | |u key] eqn:Ov; try (now apply (IH (l1 ++ [v]))).
    destruct (args g v) as [|a [|? ?]] eqn:Ea; try discriminate. binv H. binv H. binv H. injection H as <-. rename x into ex, x0 into s, x1 into rest.
    assert (Np : op_of g v <> OPhi) by (rewrite Ov; discriminate).
    assert (Ia : In a (args g v)) by (rewrite Ea; now left).
    assert (Rv : r v = r a).
    { rewrite (good_value A c Ev from t v Gt Kv Np), Ov, Ea. cbn [map]. apply sem_save. }
    assert (Eva : eval A M outer st ex = Some (r a)).
    { apply (argument_eval A M N outer c EX SP r (avail (ops_of c t))) with (d := d) (k := fuel) (p := None) (w := v); auto.
      - intros w Lw. apply (avail_block (ops_of c t) []); auto. now rewrite app_nil_r.
      - intros w b Lw. apply (avail_closed (ops_of c t) []); auto. now rewrite app_nil_r.
      - intros w Lw. apply (avail_value (ops_of c t) []); auto. now rewrite app_nil_r.
      - apply (loop_phi (ops_of c t) d); auto.
      - rewrite El. apply avail_mono. now apply (operand_avail l1 v l2). }
    destruct (Nat.eqb_spec u 2) as [->|Nu].
    + destruct last; [|discriminate]. injection E0 as <-. exists true. split; [|discriminate].
      destruct (no_saves fuel d true l2) as [S1 S2].
      { intros w u k I. apply (br_return _ _ _ BR t v key l1 l2 El Ov w u k I). }
      rewrite S1 in E1. injection E1 as <-. rewrite S2. cbn [do_all do_stmt]. rewrite Eva. cbn. now rewrite Rv.
    + destruct (outs key) as [[| |]|]; try discriminate. injection E0 as <-. destruct (IH (l1 ++ [v]) rest El' E1) as (fin & R & Hf). exists fin. split; auto.
      cbn [do_all do_stmt]. rewrite Eva, R. cbn [handed app map as_output]. replace (u =? 2) with false by (symmetry; now apply Nat.eqb_neq). now rewrite Rv.
Qed.

(** What a block hands on to phi functions. *)
Definition carried (L : list nat) (o : option nat) (st : store A) : Prop :=
  forall s x p u, o = Some s -> In x (ops_of c s) -> feeds c x p -> declares_phi c p = true -> In u L -> In p (ops_of c u) -> look A st (vn p) = Some (Some (r x)).

Lemma block_exec fuel d st ss asg d' last saves : loop [] d st -> carried (t :: K) from st ->
  (forall v, In v (ops_of c t) -> declares_phi c v = true -> declared d v = true) ->
  (forall v, In v (ops_of c t) -> declared d v = true -> declares_phi c v = true) ->
  (forall m p, In m K -> In p (ops_of c m) -> declares_phi c p = true -> In (vn p) (keys st)) ->
  block_operations N c fuel d (ops_of c t) = Ok (ss, asg, d') -> output_operations N outs c fuel d' last (ops_of c t) = Ok saves ->
  exists fin st', run_all (ss ++ map (fun a => SAssign (fst a) (snd a)) (sort_assign asg) ++ saves) st = Some (fin, st', map (as_output A) (block_outs A c Ev t)) /\
    (last = false -> fin = false) /\ loop (ops_of c t) d' st' /\ extends_store st st' /\ carried K (Some t) st' /\
    (forall v, declared d v = true -> declared d' v = true) /\
    (forall v, declared d' v = true -> declared d v = true \/ (In v (ops_of c t) /\ op_of g v <> OPhi)).
Proof.
  intros L Ca Pd Cl Pk B O.
  assert (P : phis_set d st).
  { intros v Kv Dv. split; [now apply Pd|]. pose proof (declares_is_phi v Dv) as Op.
    destruct (good_phi A c e all BR Ev from t v Gt Kv Op) as (s & x & -> & Ix & Kx & ->).
    apply (Ca s x v t); auto; [now apply feeds_one|now left]. }
  destruct (loop_run fuel (ops_of c t) [] d st ss asg d') as (st1 & R1 & L1 & X1 & Lk1 & Mo & Nw & (A1 & A2)); auto. cbn [app] in L1.
  assert (F1 : fits d' st1) by (split; [apply (lp_temp _ _ _ L1)|now apply (loop_outer (ops_of c t) d')]).
  destruct (assigns_run d' (sort_assign asg) st1 F1) as (st2 & R2 & K2 & F2 & Lk2 & Pu).
  { intros s rhs I. rewrite sort_assign_in in I. destruct (A1 s rhs I) as (x & p & Kx & _ & Fx & Dp & Es & Hs). eauto 8. }
  { intros m p Hm Kp Dp. apply (ext_keys st st1); auto. now apply (Pk m). }
  destruct (outputs_run fuel d' last st2) with (l1 := @nil name) (l2 := ops_of c t) (saves := saves) as (fin & R3 & Hf); auto. { apply (lp_phi _ _ _ L1). }
  exists fin, st2. rewrite do_all_app, R1, do_all_app, R2, R3. split; [reflexivity|]. split; auto. split; [|split; [|split]].
  - split.
    + apply (proj1 F2).
    + apply (lp_phi _ _ _ L1).
    + rewrite K2. apply (lp_keys _ _ _ L1).
    + rewrite K2. apply (lp_nodup _ _ _ L1).
  - apply ext_trans with st1; auto. exists [], st2. split; auto. rewrite K2. split; auto. apply (lp_nodup _ _ _ L1).
  - intros s x p u Es Kx Fx Dp Hu Kp. injection Es as <-.
    destruct (control (op_of g x)) eqn:Cx.
    + assert (Ox : op_of g x = OPhi).
      { inversion Fx as [? ? Oq Ix|? q ? Oq Ix]; subst; destruct (br_phi_use _ _ _ BR x _ Oq Ix) as [_ [|]]; auto; congruence. }
      destruct (good_phi A c e all BR Ev from t x Gt Kx Ox) as (s & y & -> & Iy & Ky & ->).
      rewrite Lk2.
      * rewrite Lk1 by now apply (Pk u). apply (Ca s y p u); auto; [now apply feeds_more with x|now right].
      * intros I. apply in_map_iff in I. destruct I as ([s' rhs] & Es & I). cbn in Es. subst s'. rewrite sort_assign_in in I.
        destruct (A1 _ rhs I) as (z & p' & Kz & Cz & Fz & _ & Ep & _). apply variable_name_inj in Ep. subst p'.
        rewrite (feeds_inj c e all BR x p Fx z t Kx Kz Fz) in Cx. congruence.
    + destruct (A2 x p Kx Cx Fx Dp) as (rhs & I). apply (Pu p rhs x); auto. now apply sort_assign_in.
  - auto.
Qed.
End Block.
