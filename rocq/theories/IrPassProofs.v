(** Duplicate and dead code elimination, copy elimination and the topological sort. *)
From Coq Require Import String List Arith ZArith Bool Permutation Lia.
From Verif Require Import Outcome RangesModel IrModel IrSpec IrProofs.
Import ListNotations.
Open Scope outcome_scope.
Open Scope nat_scope.

Ltac conj := repeat match goal with |- _ /\ _ => split end.

Section Passes.
Context {TY : typing}.

(** * Dead code *)
Lemma remove_if_unused_step g b l v :
  program TY g b l -> In v l ->
  (is_unused g v = true /\ exists g' l1 l2, remove_if_unused g v = (g', true) /\ l = l1 ++ v :: l2 /\
     program TY g' b (l1 ++ l2) /\ sim g l g' (l1 ++ l2) /\
     g_next g' = g_next g /\ (forall n, op_of g' n = op_of g n /\ ty_of g' n = ty_of g n) /\
     (forall n, args g' n = if n =? v then [] else args g n) /\
     (forall n, cons_of g n = [] -> cons_of g' n = [])) \/
  (is_unused g v = false /\ remove_if_unused g v = (g, false)).
Proof.
  intros P Hv. unfold remove_if_unused. destruct (is_unused g v) eqn:U; [left|right; now split].
  split; [reflexivity|]. unfold is_unused in U. destruct (cons_of g v) eqn:C; [|discriminate].
  apply Bool.negb_true_iff in U. apply in_split in Hv as (l1 & l2 & ->).
  destruct (remove_step g b l1 v l2 P C U) as (g' & E & P' & S & N & Q & R & T).
  exists g', l1, l2. rewrite E. conj; auto.
Qed.

(** Any order. *)
Lemma remove_unused_gen b : forall t p g l,
  program TY g b l -> Permutation l (p ++ t) ->
  exists g' t' l', reverse_remove_if remove_if_unused t g = (t', g') /\
    program TY g' b l' /\ Permutation l' (p ++ t') /\ sim g l g' l' /\ incl t' t /\
    g_next g' = g_next g /\ (forall n, op_of g' n = op_of g n /\ ty_of g' n = ty_of g n) /\
    (forall n, In n (p ++ t') -> args g' n = args g n).
Proof.
  induction t as [|v t IH]; intros p g l P Q.
  - exists g, [], l. split; [reflexivity|]. split; [assumption|]. split; [assumption|]. split; [apply sim_refl|].
    split; [intros x []|]. split; [reflexivity|]. split; [now split|reflexivity].
  - assert (Q' : Permutation l ((p ++ [v]) ++ t)) by (rewrite <- app_assoc; exact Q).
    destruct (IH (p ++ [v]) g l P Q') as (g1 & t1 & l1 & E & P1 & Q1 & S1 & I1 & N1 & O1 & A1).
    cbn [reverse_remove_if]. rewrite E. rewrite <- app_assoc in Q1. cbn [app] in Q1.
    assert (Hv : In v l1). { apply (Permutation_in v (Permutation_sym Q1)), in_or_app. right. now left. }
    destruct (remove_if_unused_step g1 b l1 v P1 Hv) as [(U & g2 & m1 & m2 & E2 & El & P2 & S2 & N2 & O2 & A2 & C2)|(U & E2)];
      rewrite E2.
    + exists g2, t1, (m1 ++ m2). split; [reflexivity|]. split; [assumption|].
      assert (R : Permutation (m1 ++ m2) (p ++ t1)).
      { apply Permutation_cons_inv with (a := v). rewrite Permutation_middle, <- El, Q1.
        symmetry. apply Permutation_middle. }
      split; [exact R|]. split; [eapply sim_trans; eassumption|].
      split; [intros x Hx; right; now apply I1|]. split; [congruence|].
      split; [intros n; destruct (O1 n), (O2 n); split; congruence|].
      intros n Hn. rewrite A2. destruct (Nat.eqb_spec n v) as [->|].
      * exfalso. assert (ND : NoDup (m1 ++ v :: m2)) by (rewrite <- El; apply P1).
        apply nodup_mid in ND as [_ ND]. apply ND. apply (Permutation_in v (Permutation_sym R)). assumption.
      * apply A1. rewrite <- app_assoc. cbn. apply in_app_or in Hn as [Hn|Hn]; apply in_or_app; [now left|right; now right].
    + exists g1, (v :: t1), l1. split; [reflexivity|]. split; [assumption|]. split; [exact Q1|]. split; [assumption|].
      split; [intros x [->|Hx]; [now left|right; now apply I1]|]. split; [assumption|]. split; [assumption|].
      intros n Hn. apply A1. rewrite <- app_assoc. exact Hn.
Qed.

(** In dependency order: everything that is left is used. *)
Lemma remove_unused_ordered b : forall t p g,
  program TY g b (p ++ t) ->
  exists g' t', reverse_remove_if remove_if_unused t g = (t', g') /\
    program TY g' b (p ++ t') /\ sim g (p ++ t) g' (p ++ t') /\ incl t' t /\
    g_next g' = g_next g /\ (forall n, op_of g' n = op_of g n /\ ty_of g' n = ty_of g n) /\
    (forall n, In n (p ++ t') -> args g' n = args g n) /\
    (forall n, In n t' -> is_unused g' n = false) /\
    (forall n, In n t -> ~ In n t' -> is_sink (op_of g n) = false).
Proof.
  induction t as [|v t IH]; intros p g P.
  - exists g, []. conj; auto; try (intros x []); try (now intros); apply sim_refl.
  - assert (Q : p ++ v :: t = (p ++ [v]) ++ t) by now rewrite <- app_assoc.
    rewrite Q in P. destruct (IH (p ++ [v]) g P) as (g1 & t1 & E & P1 & S1 & I1 & N1 & O1 & A1 & F1 & K1).
    cbn [reverse_remove_if]. rewrite E.
    assert (Q1 : (p ++ [v]) ++ t1 = p ++ v :: t1) by now rewrite <- app_assoc. rewrite Q1 in *.
    assert (Hv : In v (p ++ v :: t1)) by (apply in_or_app; right; now left).
    destruct (remove_if_unused_step g1 b _ v P1 Hv) as [(U & g2 & m1 & m2 & E2 & El & P2 & S2 & N2 & O2 & A2 & C2)|(U & E2)];
      rewrite E2.
    + assert (ND : NoDup (p ++ v :: t1)) by apply P1.
      assert (m1 = p /\ m2 = t1) as [-> ->].
      { clear - El ND. revert m1 El ND. induction p as [|x p IH]; intros m1 El ND.
        - destruct m1 as [|y m1]; [injection El as ->; auto|]. injection El as <- E2. exfalso.
          inversion ND as [|? ? N _]. apply N. rewrite E2. apply in_or_app. right. now left.
        - destruct m1 as [|y m1].
          + injection El as -> E2. exfalso. inversion ND as [|? ? N _]. apply N. apply in_or_app. right. now left.
          + injection El as <- E2. destruct (IH m1 E2) as [-> ->]; [now inversion ND|auto]. }
      exists g2, t1. split; [reflexivity|]. split; [assumption|].
      rewrite Q. split; [eapply sim_trans; eassumption|].
      split; [intros x Hx; right; now apply I1|]. split; [congruence|].
      split; [intros n; destruct (O1 n), (O2 n); split; congruence|].
      pose proof ND as ND'. apply nodup_mid in ND' as [_ Nv].
      split; [|split].
      * intros n Hn. rewrite A2. destruct (Nat.eqb_spec n v) as [->|]; [now apply Nv in Hn|].
        apply A1. apply in_app_or in Hn as [Hn|Hn]; apply in_or_app; [now left|right; now right].
      * intros n Hn. specialize (F1 n Hn). unfold is_unused in *.
        destruct (O2 n) as [-> _]. destruct (cons_of g2 n) as [|x c] eqn:Ec; [|reflexivity].
        destruct (cons_of g1 n) as [|y c1] eqn:Ec1; [assumption|].
        (* y consumes n in g1, hence y <> v (v comes first), hence y still consumes n *)
        exfalso. assert (Hy : In n (args g1 y)).
        { apply cnt_in. destruct P1 as [B1 _]. rewrite <- (bo_def_use _ _ _ B1), Ec1, cnt_cons. destruct (Nat.eq_dec y y); [lia|congruence]. }
        assert (y <> v).
        { intros ->. destruct P1 as [B1 Or]. pose proof (Or v n Hv Hy) as Hb. change (v :: t1) with ([v] ++ t1) in Hb.
          apply before_split in Hb; [|exact ND]. destruct Hb as [Hb|[[Hb _]|Hb]].
          - apply before_in in Hb. apply Nv, in_or_app. now left.
          - apply in_split in Hb as (x1 & x2 & ->). rewrite <- app_assoc in ND. cbn in ND. apply nodup_mid in ND as [_ Nn].
            apply Nn. rewrite !in_app_iff. cbn. tauto.
          - apply before_split in Hb; [|now apply nodup_app_r in ND].
            destruct Hb as [Hb|[[_ Hb]|Hb]]; apply Nv, in_or_app; right; try assumption.
            + apply before_in in Hb as [[<-|[]] [|[]]]. exact Hn.
            + apply before_in in Hb. tauto. }
        assert (Hy2 : In n (args g2 y)).
        { rewrite A2. destruct (Nat.eqb_spec y v); [contradiction|assumption]. }
        destruct P2 as [B2 _]. apply cnt_in in Hy2. rewrite <- (bo_def_use _ _ _ B2), Ec in Hy2. cbn in Hy2. lia.
      * intros n [<-|Hn] Hn'; [|now apply K1].
        unfold is_unused in U. destruct (cons_of g1 v); [|discriminate]. apply Bool.negb_true_iff in U.
        destruct (O1 v) as [<- _]. assumption.
    + exists g1, (v :: t1). split; [reflexivity|]. split; [assumption|]. rewrite Q. split; [assumption|].
      split; [intros x [->|Hx]; [now left|right; now apply I1]|]. split; [assumption|]. split; [assumption|].
      split; [assumption|]. split.
      * intros n [<-|Hn]; [assumption|now apply F1].
      * intros n [<-|Hn] Hn'; [exfalso; apply Hn'; now left|]. apply K1; [assumption|]. intros H. apply Hn'. now right.
Qed.

(** * Duplicates *)
Lemma same_value_iff g a b : same_value g a b = true <-> op_of g a = op_of g b /\ args g a = args g b.
Proof.
  unfold same_value. destruct (op_dec _ _) as [E|N], (list_eq_dec _ _ _) as [E'|N']; cbn; split; intros H;
    try discriminate; try tauto.
Qed.

Lemma no_phi_consumer g b l v : program TY g b l -> is_consumed_by_phi g v = false.
Proof.
  intros [B O]. unfold is_consumed_by_phi. destruct (existsb _ _) eqn:E; [|reflexivity]. exfalso.
  apply existsb_exists in E as (c & Hc & Hp).
  assert (In v (args g c)) as Ha. { apply cnt_in. rewrite <- (bo_def_use _ _ _ B). now apply cnt_in. }
  destruct (in_dec Nat.eq_dec c l) as [Hl|Hl].
  - destruct (bo_plain _ _ _ B c Hl) as [N _]. destruct (op_of g c); try discriminate. congruence.
  - rewrite (bo_dead _ _ _ B c Hl) in Ha. destruct Ha.
Qed.

(** State of local value numbering after the values [p] of the block [p ++ t]. *)
Record lvn_inv (g : graph) (b : nat) (p t : list name) (table : list name) : Prop := {
  li_prog : program TY g b (p ++ t);
  li_table : incl table p;
  li_distinct : forall a c, In a table -> In c table -> same_value g a c = true -> a = c;
  li_rest : forall v, In v p -> ~ In v table -> cons_of g v = []
}.

Lemma cons_nil_iff g v : def_use g -> (cons_of g v = [] <-> forall c, ~ In v (args g c)).
Proof.
  intros DU. split.
  - intros E c H. apply cnt_in in H. rewrite <- DU, E in H. cbn in H. lia.
  - intros H. destruct (cons_of g v) as [|c l] eqn:E; [reflexivity|]. exfalso. apply (H c).
    apply cnt_in. rewrite <- DU, E, cnt_cons. destruct (Nat.eq_dec c c); [lia|congruence].
Qed.

Lemma lvn_fold b t : forall g p table,
  lvn_inv g b p t table ->
  exists g' table', mfold lvn_step t (g, table) = Ok (g', table') /\
    lvn_inv g' b (p ++ t) [] table' /\ sim g (p ++ t) g' (p ++ t) /\
    (forall n, op_of g' n = op_of g n).
Proof.
  induction t as [|v t IH]; intros g p table [P T Di R].
  - exists g, table. rewrite app_nil_r in *. split; [reflexivity|]. split; [split; rewrite ?app_nil_r; assumption|].
    split; [apply sim_refl|reflexivity].
  - assert (Q : p ++ v :: t = (p ++ [v]) ++ t) by now rewrite <- app_assoc.
    cbn [mfold lvn_step].
    assert (ND : NoDup (p ++ v :: t)) by apply P.
    assert (Nv : ~ In v p). { apply nodup_mid in ND as [_ N]. intros H. apply N, in_or_app. now left. }
    assert (Hv : In v (p ++ v :: t)) by (apply in_or_app; right; now left).
    destruct (find (fun r => same_value g r v) table) as [r|] eqn:F.
    + apply find_some in F as [Fr Fs]. rewrite (no_phi_consumer g b (p ++ v :: t)) by assumption.
      apply same_value_iff in Fs as [Fo Fa].
      assert (Hr : In r p) by now apply T.
      destruct P as [B O].
      assert (Hb : before (p ++ v :: t) r v) by (exists p, t; auto).
      destruct (replace_step (T:=TY) g b (p ++ v :: t) v r) as (g' & E & P' & S' & N' & O' & A' & Pm & C' & K'); try assumption.
      * now split.
      * apply in_or_app. now left.
      * intros ->. contradiction.
      * rewrite (bo_typed _ _ _ B v Hv), (bo_typed _ _ _ B r) by (apply in_or_app; now left). now rewrite Fo, Fa.
      * intros c Hc Hvc. eapply before_trans; [exact ND|exact Hb|now apply O].
      * intros A r0 C. rewrite (C v Hv), (C r) by (apply in_or_app; now left). now rewrite Fo, Fa.
      * rewrite E. cbn [bind].
        assert (Hargs : forall n, In n p -> args g' n = args g n).
        { intros n Hn. apply A'. intros Hvn. assert (In n (p ++ v :: t)) as Hn' by (apply in_or_app; now left).
          pose proof (O n v Hn' Hvn) as Bf. change (v :: t) with ([v] ++ t) in Bf.
          apply before_split in Bf; [|exact ND]. destruct Bf as [Bf|[[Bf _]|Bf]].
          - apply before_in in Bf. tauto.
          - contradiction.
          - apply before_in in Bf as [_ Bf]. apply in_split in Hn as (x1 & x2 & ->).
            rewrite <- app_assoc in ND. cbn in ND. apply nodup_mid in ND as [_ Nn]. apply Nn.
            rewrite !in_app_iff. cbn in *. tauto. }
        destruct (IH g' (p ++ [v]) table) as (g2 & table2 & E2 & I2 & S2 & O2).
        { split.
          - now rewrite <- Q.
          - intros x Hx. apply in_or_app. left. now apply T.
          - intros a c Ha Hc. rewrite same_value_iff. destruct (O' a) as [-> _], (O' c) as [-> _].
            rewrite !Hargs by now apply T. rewrite <- same_value_iff. now apply Di.
          - intros n Hn Hnt. apply in_app_or in Hn as [Hn|[<-|[]]]; [|assumption].
            destruct P' as [B' O'']. apply cons_nil_iff; [apply B'|]. intros c Hc.
            apply (Permutation_in n (Pm c)) in Hc. apply in_map_iff in Hc as (x & Ex & Hx).
            unfold subst_name in Ex. destruct (Nat.eqb_spec x v) as [Exv|].
            + rewrite <- Ex in Hnt. contradiction.
            + rewrite Ex in Hx. specialize (R n Hn Hnt). rewrite cons_nil_iff in R by apply B. now apply (R c). }
        rewrite <- Q in I2, S2. exists g2, table2.
        split; [assumption|]. split; [assumption|]. split; [eapply sim_trans; eassumption|].
        intros n. rewrite O2. apply O'.
    + cbn [bind]. destruct (IH g (p ++ [v]) (v :: table)) as (g2 & table2 & E2 & I2 & S2 & O2).
      { pose proof (find_none _ _ F) as FN. cbn beta in FN. split.
        - now rewrite <- Q.
        - intros x [<-|Hx]; apply in_or_app; [right; now left|left; now apply T].
        - intros a c [<-|Ha] [<-|Hc] Hs; [reflexivity| | |now apply Di].
          + specialize (FN c Hc). assert (same_value g c v = true) by (rewrite same_value_iff in *; intuition congruence).
            congruence.
          + specialize (FN a Ha). congruence.
        - intros n Hn Hnt. apply in_app_or in Hn as [Hn|[<-|[]]].
          + apply R; [assumption|]. intros H. apply Hnt. now right.
          + exfalso. apply Hnt. now left. }
      rewrite <- Q in I2, S2. exists g2, table2. auto.
Qed.

Theorem eliminate_duplicates_spec g b ops :
  program TY g b ops ->
  exists g' ops', eliminate_duplicates (g, ops) = Ok (g', ops') /\
    program TY g' b ops' /\ sim g ops g' ops' /\ incl ops' ops /\
    (forall v, In v ops' -> is_unused g' v = false) /\
    no_duplicates g' ops' /\
    (forall n, op_of g' n = op_of g n).
Proof.
  intros P. unfold eliminate_duplicates, local_value_numbering.
  destruct (lvn_fold b ops g [] []) as (g1 & table & E & I1 & S1 & O1).
  { split; [assumption|intros x []|intros a c []|intros v []]. }
  cbn [app] in *. rewrite E. cbn [bind fst].
  destruct I1 as [P1 T1 D1 R1]. rewrite app_nil_r in P1.
  destruct (remove_unused_ordered b ops [] g1 P1) as (g2 & ops' & E2 & P2 & S2 & I2 & N2 & O2 & A2 & U2 & K2).
  cbn [app] in *. exists g2, ops'. unfold remove_unused. rewrite E2. split; [reflexivity|].
  split; [assumption|]. split; [eapply sim_trans; eassumption|]. split; [assumption|]. split; [assumption|]. split.
  - intros a c Ha Hc Sa Sc Eo Ea.
    assert (In_table : forall v, In v ops' -> is_sink (op_of g2 v) = false -> In v table).
    { intros v Hv Sv. destruct (in_dec Nat.eq_dec v table) as [|Nt]; [assumption|]. exfalso.
      pose proof (R1 v (I2 v Hv) Nt) as Z.
      assert (cons_of g2 v = []) as Z2.
      { destruct P1 as [B1 _], P2 as [B2 _]. rewrite cons_nil_iff in * by (apply B1 || apply B2).
        intros x Hx. destruct (in_dec Nat.eq_dec x ops') as [Hx'|Hx'].
        - rewrite A2 in Hx by assumption. now apply (Z x).
        - rewrite (bo_dead _ _ _ B2) in Hx by assumption. destruct Hx. }
      specialize (U2 v Hv). unfold is_unused in U2. rewrite Z2, Sv in U2. discriminate. }
    apply D1; [now apply In_table|now apply In_table|].
    apply same_value_iff. destruct (O2 a) as [<- _], (O2 c) as [<- _]. rewrite <- !A2 by assumption. now split.
  - intros n. destruct (O2 n) as [-> _]. apply O1.
Qed.

(** * Copies *)
Lemma copies_fold b t : forall g p,
  program TY g b (p ++ t) ->
  exists g' p', mfold copy_step t (g, p) = Ok (g', p') /\
    program TY g' b p' /\ sim g (p ++ t) g' p' /\ incl p' (p ++ t) /\
    (forall n, In n p' -> In n t -> op_of g n <> OCopy) /\
    (forall n, op_of g' n = op_of g n).
Proof.
  induction t as [|v t IH]; intros g p P.
  - exists g, p. rewrite app_nil_r in *. split; [reflexivity|]. split; [assumption|]. split; [apply sim_refl|].
    split; [intros x Hx; exact Hx|]. split; [intros n _ []|reflexivity].
  - assert (Q : p ++ v :: t = (p ++ [v]) ++ t) by now rewrite <- app_assoc.
    assert (Hv : In v (p ++ v :: t)) by (apply in_or_app; right; now left).
    cbn [mfold]. unfold copy_step at 1.
    destruct (is_copy (op_of g v)) eqn:K.
    + assert (Ko : op_of g v = OCopy) by (destruct (op_of g v); discriminate || reflexivity).
      destruct P as [B O]. pose proof (bo_arity _ _ _ B v Hv) as Ar. rewrite Ko in Ar. cbn in Ar.
      unfold first_operand. destruct (args g v) as [|a [|]] eqn:Ea; try discriminate. cbn [bind].
      assert (Ha : before (p ++ v :: t) a v) by (apply O; [assumption|rewrite Ea; now left]).
      assert (ND : NoDup (p ++ v :: t)) by apply B.
      pose proof (before_in _ _ _ Ha) as [Hal _].
      rewrite !(bo_parent _ _ _ B) by assumption. rewrite Nat.eqb_refl.
      destruct (replace_step (T:=TY) g b (p ++ v :: t) v a) as (g1 & E & P1 & S1 & N1 & O1 & A1 & Pm & C1 & K1); try assumption.
      * now split.
      * intros ->. now apply before_irrefl in Ha.
      * rewrite (bo_typed _ _ _ B v Hv), Ko, Ea. apply ft_copy.
      * intros c Hc Hvc. eapply before_trans; [exact ND|exact Ha|now apply O].
      * intros A r C. rewrite (C v Hv), Ko, Ea. cbn. apply sem_copy.
      * rewrite E. cbn [bind].
        destruct (remove_step g1 b p v t P1 C1) as (g2 & E2 & P2 & S2 & N2 & O2 & A2 & C2).
        { destruct (O1 v) as [-> _]. now rewrite Ko. }
        rewrite E2. cbn [bind].
        destruct (IH g2 p P2) as (g3 & p3 & E3 & P3 & S3 & I3 & F3 & O3).
        exists g3, p3. split; [assumption|]. split; [assumption|].
        split; [eapply sim_trans; [exact S1|eapply sim_trans; [exact S2|exact S3]]|].
        split; [|split].
        -- intros x Hx. apply I3 in Hx. apply in_app_or in Hx as [Hx|Hx]; apply in_or_app; [now left|right; now right].
        -- intros n Hn [<-|Hn'].
           ++ exfalso. apply I3 in Hn. apply nodup_mid in ND. tauto.
           ++ specialize (F3 n Hn Hn'). destruct (O2 n) as [Eo2 _], (O1 n) as [Eo1 _]. congruence.
        -- intros n. rewrite O3. destruct (O2 n) as [-> _], (O1 n) as [-> _]. reflexivity.
    + cbn [bind]. rewrite Q in P. destruct (IH g (p ++ [v]) P) as (g3 & p3 & E3 & P3 & S3 & I3 & F3 & O3).
      exists g3, p3. rewrite Q. split; [assumption|]. split; [assumption|]. split; [assumption|]. split; [assumption|].
      split; [|assumption].
      intros n Hn [<-|Hn']; [|now apply F3]. intros Eo. rewrite Eo in K. discriminate.
Qed.

Theorem eliminate_needless_copies_spec g b ops :
  program TY g b ops ->
  exists g' ops', eliminate_needless_copies (g, ops) = Ok (g', ops') /\
    program TY g' b ops' /\ sim g ops g' ops' /\ incl ops' ops /\
    (forall n, In n ops' -> op_of g' n <> OCopy) /\
    (forall n, op_of g' n = op_of g n).
Proof.
  intros P. unfold eliminate_needless_copies. cbn [fst snd].
  destruct (copies_fold b ops g [] P) as (g' & p & E & P' & S & I & F & O).
  exists g', p. split; [assumption|]. split; [assumption|]. split; [assumption|]. split; [assumption|].
  split; [|assumption]. intros n Hn. rewrite O. apply F; [assumption|]. now apply I.
Qed.

(** * Topological sort *)
Lemma least_spec l : match least l with
                     | None => l = []
                     | Some x => In x l /\ forall y, In y l -> x <= y
                     end.
Proof.
  induction l as [|x t IH]; cbn [least]; [reflexivity|]. destruct (least t) as [y|].
  - destruct IH as [H1 H2]. split.
    + destruct (Nat.min_spec x y) as [[_ ->]|[_ ->]]; [now left|now right].
    + intros z [->|Hz]; [lia|]. specialize (H2 z Hz). lia.
  - subst t. split; [now left|]. intros y [->|[]]. lia.
Qed.
Lemma remove_one_length x l : In x l -> length (remove_one x l) = length l - 1.
Proof.
  induction l as [|y t IH]; [intros []|]. intros H. cbn [remove_one]. destruct (Nat.eqb_spec y x) as [->|N]; [cbn; lia|].
  destruct H as [|H]; [congruence|]. cbn [length]. rewrite IH by assumption. destruct t; [destruct H|cbn; lia].
Qed.
Lemma in_remove_one x y l : In y (remove_one x l) -> In y l.
Proof. induction l as [|z t IH]; [intros []|]. cbn [remove_one]. destruct (z =? x); cbn; tauto. Qed.
Lemma in_remove_one_other x y l : In y l -> y <> x -> In y (remove_one x l).
Proof.
  induction l as [|z t IH]; [intros []|]. cbn [remove_one]. intros [->|H] N.
  - destruct (Nat.eqb_spec y x); [contradiction|now left].
  - destruct (z =? x); [assumption|right; auto].
Qed.

Section TSort.
  Variables (g : graph) (b : nat) (ops : list name) (L : list name).
  Hypothesis P : program TY g b L.
  Hypothesis Q : Permutation L ops.

  Lemma ts_in v : In v ops <-> In v L.
  Proof. split; intros H; [apply (Permutation_in v (Permutation_sym Q) H)|apply (Permutation_in v Q H)]. Qed.

  Definition ready (out : list name) (y : name) : Prop := In y ops /\ incl (args g y) out.

  (** Weight of what can still be pushed. *)
  Definition todo (out : list name) : nat :=
    list_sum (map (fun v => length (cons_of g v)) (filter (fun v => negb (mem v out)) ops)).

  Record tinv (queue out : list name) : Prop := {
    ti_nodup : NoDup out;
    ti_incl : incl out ops;
    ti_queue : forall y, In y queue -> ready out y;
    ti_ready : forall y, ready out y -> ~ In y out -> In y queue;
    ti_sorted : tsorted g ops out
  }.

  Lemma list_sum_filter_split (f : name -> nat) x l out :
    NoDup l -> In x l -> ~ In x out ->
    list_sum (map f (filter (fun v => negb (mem v out)) l)) =
    f x + list_sum (map f (filter (fun v => negb (mem v (out ++ [x]))) l)).
  Proof.
    intros ND Hx Ho. induction l as [|y t IH]; [destruct Hx|]. inversion ND as [|? ? N ND']; subst.
    cbn [filter].
    assert (Hm : forall z, mem z (out ++ [x]) = mem z out || (z =? x)).
    { intros z. unfold mem. rewrite existsb_app. cbn. now rewrite Bool.orb_false_r. }
    assert (Hox : mem x out = false). { destruct (mem x out) eqn:E; [apply mem_in in E; contradiction|reflexivity]. }
    destruct Hx as [->|Hx].
    - rewrite Hm, Nat.eqb_refl, Bool.orb_true_r, Hox. cbn [negb map list_sum].
      assert (Heq : filter (fun v => negb (mem v out)) t = filter (fun v => negb (mem v (out ++ [x]))) t).
      { apply filter_ext_in. intros z Hz. rewrite Hm. destruct (Nat.eqb_spec z x); [subst; contradiction|].
        now rewrite Bool.orb_false_r. }
      rewrite Heq. reflexivity.
    - rewrite Hm. destruct (Nat.eqb_spec y x) as [->|Ny]; [contradiction|]. rewrite Bool.orb_false_r.
      specialize (IH ND' Hx). unfold list_sum in *.
      destruct (negb (mem y out)); cbn [map fold_right]; rewrite IH; lia.
  Qed.

  Lemma tsort_loop_spec : forall fuel queue out,
    tinv queue out -> length queue + todo out < fuel ->
    exists out', tsort_loop fuel g b queue out = Ok out' /\ tinv [] out'.
  Proof.
    destruct P as [B O].
    assert (NDo : NoDup ops) by (apply (Permutation_NoDup Q); apply B).
    induction fuel as [|fuel IH]; intros queue out T F; [lia|]. cbn [tsort_loop].
    pose proof (least_spec queue) as Le. destruct (least queue) as [top|].
    2:{ subst queue. exists out. split; [reflexivity|assumption]. }
    destruct Le as [Ht Hmin]. destruct T as [T1 T2 T3 T4 T5].
    pose proof (remove_one_length top queue Ht) as Rl.
    assert (0 < length queue) by (destruct queue; [destruct Ht|cbn; lia]).
    destruct (mem top out) eqn:M.
    - apply mem_in in M. apply IH; [|lia]. split; try assumption.
      + intros y Hy. apply T3. eapply in_remove_one; eassumption.
      + intros y Hr Hn. apply in_remove_one_other; [now apply T4|]. intros ->. contradiction.
    - assert (Nt : ~ In top out) by (intros H'; apply mem_in in H'; congruence).
      destruct (T3 top Ht) as [To Ta].
      set (out' := out ++ [top]).
      set (rdy := filter (fun c => (parent g c =? b) && forallb (fun a => mem a out') (args g c)) (cons_of g top)).
      assert (Hr : forall c, In c rdy <-> In c (cons_of g top) /\ ready out' c).
      { intros c. unfold rdy. rewrite filter_In, Bool.andb_true_iff, forallb_forall.
        split; intros [H1 H2]; (split; [assumption|]).
        - assert (In top (args g c)) as Hc. { apply cnt_in. rewrite <- (bo_def_use _ _ _ B). now apply cnt_in. }
          destruct (in_dec Nat.eq_dec c L) as [Hl|Hl]; [|rewrite (bo_dead _ _ _ B c Hl) in Hc; destruct Hc].
          split; [now apply ts_in|]. intros a Ha. apply mem_in. now apply H2.
        - destruct H2 as [H2 H3]. apply ts_in in H2. split.
          + rewrite (bo_parent _ _ _ B) by assumption. apply Nat.eqb_refl.
          + intros a Ha. apply mem_in. now apply H3. }
      apply IH.
      + split.
        * unfold out'. apply NoDup_rev in T1. rewrite <- (rev_involutive (out ++ [top])). apply NoDup_rev.
          rewrite rev_app_distr. cbn. constructor; [|assumption]. now rewrite <- in_rev.
        * intros x Hx. apply in_app_or in Hx as [Hx|[<-|[]]]; [now apply T2|assumption].
        * intros y Hy. apply in_app_or in Hy as [Hy|Hy]; [|now apply Hr].
          apply in_remove_one in Hy. destruct (T3 y Hy) as [H1 H2]. split; [assumption|].
          intros a Ha. apply in_or_app. left. now apply H2.
        * intros y [Hy1 Hy2] Hn.
          assert (y <> top) by (intros ->; apply Hn, in_or_app; right; now left).
          destruct (in_dec Nat.eq_dec top (args g y)) as [Hin|Hin].
          -- apply in_or_app. right. apply Hr. split; [|now split].
             apply cnt_in. rewrite (bo_def_use _ _ _ B). now apply cnt_in.
          -- apply in_or_app. left. apply in_remove_one_other; [|assumption]. apply T4.
             ++ split; [assumption|]. intros a Ha. specialize (Hy2 a Ha). apply in_app_or in Hy2 as [|[<-|[]]]; [assumption|contradiction].
             ++ intros Hy3. apply Hn, in_or_app. now left.
        * intros l1 x l2 El. unfold out' in El.
          destruct (list_eq_dec Nat.eq_dec l2 []) as [->|Nl].
          -- apply app_inj_tail in El as [<- <-]. split; [assumption|].
             intros y Hy1 Hy2 Hy3. apply Hmin. apply T4; [now split|assumption].
          -- destruct (exists_last Nl) as (l3 & z & ->). rewrite app_comm_cons, app_assoc in El.
             apply app_inj_tail in El as [El <-]. now apply (T5 l1 x l3).
      + unfold todo in *. rewrite (list_sum_filter_split (fun v => length (cons_of g v)) top ops out NDo To Nt) in F.
        fold out' in F. rewrite app_length.
        assert (length rdy <= length (cons_of g top)).
        { unfold rdy. generalize (cons_of g top). intros l0. induction l0 as [|z l0 IHl]; cbn; [lia|].
          destruct (_ && _); cbn; lia. }
        lia.
  Qed.

  Lemma filter_length_le (f : name -> bool) l : length (filter f l) <= length l.
  Proof. induction l as [|x t IH]; cbn; [lia|]. destruct (f x); cbn; lia. Qed.

  Theorem topological_sort_spec :
    exists out, topological_sort_values g b ops = Ok out /\
      Permutation out ops /\ tsorted g ops out.
  Proof.
    destruct P as [B O]. unfold topological_sort_values.
    set (queue := filter _ ops).
    assert (NDo : NoDup ops) by (apply (Permutation_NoDup Q); apply B).
    assert (Hq : forall y, In y queue <-> ready [] y).
    { intros y. unfold queue, ready. rewrite filter_In, forallb_forall. split; intros [H1 H2]; (split; [assumption|]).
      - intros a Ha. exfalso. specialize (H2 a Ha). apply Bool.negb_true_iff, Nat.eqb_neq in H2. apply H2.
        apply (bo_parent _ _ _ B). apply ts_in in H1. eapply args_in; eassumption.
      - intros a Ha. destruct (H2 a Ha). }
    destruct (tsort_loop_spec (tsort_fuel g ops) queue []) as (out & E & T).
    - split.
      + constructor.
      + intros x [].
      + intros y Hy. now apply Hq.
      + intros y Hy _. now apply Hq.
      + intros l1 x l2 El. destruct l1; discriminate.
    - unfold tsort_fuel, todo.
      assert (Heq : filter (fun v => negb (mem v [])) ops = ops).
      { clear. induction ops as [|x t IH]; [reflexivity|]. cbn in *. now rewrite IH. }
      rewrite Heq. unfold queue.
      pose proof (filter_length_le (fun v => forallb (fun a => negb (parent g a =? b)) (args g v)) ops). lia.
    - rewrite E. cbn [bind]. destruct T as [T1 T2 T3 T4 T5].
      assert (All : forall y, In y ops -> In y out).
      { (* follow the dependency order *)
        assert (forall l1 l2, L = l1 ++ l2 -> incl l1 out) as Hpre.
        { intros l1. induction l1 as [|x l1 IH] using rev_ind; intros l2 E2; [intros x []|].
          rewrite <- app_assoc in E2. cbn in E2. specialize (IH _ E2).
          intros y Hy. apply in_app_or in Hy as [Hy|[<-|[]]]; [now apply IH|].
          destruct (in_dec Nat.eq_dec x out) as [|Nx]; [assumption|]. exfalso. apply (T4 x); [|assumption].
          assert (In x L) as HxL by (rewrite E2; apply in_or_app; right; now left).
          split; [now apply ts_in|]. intros a Ha. apply IH. pose proof (O x a HxL Ha) as Hb.
          pose proof (bo_nodup _ _ _ B) as ND. rewrite E2 in Hb, ND. change (x :: l2) with ([x] ++ l2) in Hb, ND.
          apply before_split in Hb; [|assumption]. apply nodup_mid in ND as [ND1 ND2].
          destruct Hb as [Hb|[[Hb _]|Hb]].
          - apply before_in in Hb. exfalso. apply ND2, in_or_app. tauto.
          - assumption.
          - exfalso. assert (NDx : NoDup ([x] ++ l2)).
            { constructor; [intros H; apply ND2, in_or_app; now right|]. now apply nodup_app_r in ND1. }
            apply before_split in Hb; [|assumption]. destruct Hb as [Hb|[[_ Hb]|Hb]].
            + destruct Hb as (k1 & k2 & Ek & Hk). destruct k1 as [|? [|]]; try destruct Hk; discriminate.
            + apply ND2, in_or_app. now right.
            + apply before_in in Hb. apply ND2, in_or_app. tauto. }
        intros y Hy. apply ts_in in Hy. apply (Hpre L []); [now rewrite app_nil_r|assumption]. }
      assert (Pm : Permutation out ops).
      { apply NoDup_Permutation; [assumption|assumption|]. intros x. split; [apply T2|apply All]. }
      rewrite (Permutation_length Pm), Nat.eqb_refl. exists out. split; [reflexivity|]. split; assumption.
  Qed.
End TSort.

Lemma tsorted_ordered g ops out : tsorted g ops out -> ordered g out.
Proof.
  intros T v a Hv Ha. apply in_split in Hv as (l1 & l2 & ->). destruct (T l1 v l2 eq_refl) as [H _].
  exists l1, l2. split; [reflexivity|now apply H].
Qed.

(** The order is determined by the graph and the set of operations. *)
Lemma tsorted_unique g ops : forall out out',
  Permutation out ops -> Permutation out' ops -> NoDup ops -> tsorted g ops out -> tsorted g ops out' -> out = out'.
Proof.
  intros out out' P P' ND T T'.
  assert (H : forall l1 l2 l2', out = l1 ++ l2 -> out' = l1 ++ l2' -> l2 = l2').
  { intros l1 l2. remember (length l2) as n eqn:En. revert l1 l2 En.
    induction n as [|n IH]; intros l1 l2 En l2' E E'.
    - destruct l2; [|discriminate]. apply Permutation_length in P, P'. rewrite E, app_length in P. rewrite E', app_length in P'.
      destruct l2'; [reflexivity|]. cbn in *. lia.
    - destruct l2 as [|x t]; [discriminate|]. destruct l2' as [|y t'].
      { apply Permutation_length in P, P'. rewrite E, app_length in P. rewrite E', app_length in P'. cbn in *. lia. }
      destruct (T l1 x t E) as [Hx Mx], (T' l1 y t' E') as [Hy My].
      assert (NDo : NoDup out) by (apply (Permutation_NoDup (Permutation_sym P)); assumption).
      assert (NDo' : NoDup out') by (apply (Permutation_NoDup (Permutation_sym P')); assumption).
      assert (In x ops) as Ix. { apply (Permutation_in x P). rewrite E. apply in_or_app. right. now left. }
      assert (In y ops) as Iy. { apply (Permutation_in y P'). rewrite E'. apply in_or_app. right. now left. }
      assert (~ In x l1) as Nx. { rewrite E in NDo. apply nodup_mid in NDo as [_ N]. intros H. apply N, in_or_app. now left. }
      assert (~ In y l1) as Ny. { rewrite E' in NDo'. apply nodup_mid in NDo' as [_ N]. intros H. apply N, in_or_app. now left. }
      assert (x = y) as <-. { specialize (Mx y Iy Ny Hy). specialize (My x Ix Nx Hx). lia. }
      f_equal. apply (IH (l1 ++ [x])).
      + cbn in En. lia.
      + now rewrite <- app_assoc.
      + now rewrite <- app_assoc. }
  now apply (H []).
Qed.

(** The tail shared by the passes that append operations: remove what is unused, then sort. *)
Lemma finish_pass g b l ops :
  program TY g b l -> Permutation l ops ->
  let (g', ops1) := remove_unused g ops in
  exists out, topological_sort_values g' b ops1 = Ok out /\
    program TY g' b out /\ sim g l g' out /\ incl out ops /\ tsorted g' ops1 out /\ Permutation out ops1 /\
    g_next g' = g_next g /\ (forall n, op_of g' n = op_of g n /\ ty_of g' n = ty_of g n) /\
    (forall n, In n out -> args g' n = args g n).
Proof.
  intros P Q. unfold remove_unused.
  destruct (remove_unused_gen b ops [] g l P Q) as (g' & ops1 & l1 & E & P1 & Q1 & S1 & I1 & N1 & O1 & A1).
  rewrite E. cbn [app] in *.
  destruct (topological_sort_spec g' b ops1 l1 P1 Q1) as (out & Eo & Pm & T).
  exists out. split; [assumption|].
  assert (Pl : Permutation l1 out) by (rewrite Q1; now apply Permutation_sym).
  split; [|split; [|split; [|split; [assumption|split; [assumption|split; [assumption|split; [assumption|]]]]]]].
  - split; [apply (block_ok_perm g' b l1 out Pl); apply P1|now apply tsorted_ordered in T].
  - now apply (sim_perm_r g l g' l1 out).
  - intros x Hx. apply I1. apply (Permutation_in x Pm Hx).
  - intros n Hn. apply A1. apply (Permutation_in n Pm Hn).
Qed.

(** Dead code elimination on a program in order keeps exactly what the outputs depend on. *)
Theorem remove_unused_live g b ops :
  program TY g b ops ->
  exists g' ops', remove_unused g ops = (g', ops') /\
    program TY g' b ops' /\ sim g ops g' ops' /\ incl ops' ops /\
    (forall v, In v ops' <-> live g ops v) /\
    (forall v, In v ops' -> op_of g' v = op_of g v /\ args g' v = args g v).
Proof.
  intros P. unfold remove_unused.
  destruct (remove_unused_ordered b ops [] g P) as (g' & ops' & E & P' & S' & I & N & O & A & U & K). cbn [app] in *.
  rewrite E. exists g', ops'. split; [reflexivity|]. split; [assumption|]. split; [assumption|]. split; [assumption|].
  split; [|intros v Hv; split; [apply O|now apply A]].
  intros v. split.
  - destruct P' as [B' O'].
    assert (H : forall l2 l1, ops' = l1 ++ l2 -> forall v, In v l2 -> live g ops v).
    { induction l2 as [|x l2 IH]; intros l1 El w Hw; [destruct Hw|].
      assert (El' : ops' = (l1 ++ [x]) ++ l2) by (rewrite <- app_assoc; exact El).
      destruct Hw as [<-|Hw]; [|now apply (IH _ El')].
      assert (Hx : In x ops') by (rewrite El; apply in_or_app; right; now left).
      specialize (U x Hx). unfold is_unused in U. destruct (cons_of g' x) as [|c cs] eqn:Ec.
      - apply live_sink; [now apply I|]. destruct (O x) as [<- _]. now apply Bool.negb_false_iff.
      - assert (Hc : In x (args g' c)).
        { apply cnt_in. rewrite <- (bo_def_use _ _ _ B'), Ec, cnt_cons. destruct (Nat.eq_dec c c); [lia|congruence]. }
        destruct (in_dec Nat.eq_dec c ops') as [Hl|Hl]; [|rewrite (bo_dead _ _ _ B' c Hl) in Hc; destruct Hc].
        apply live_operand with c; [|rewrite <- A; assumption].
        apply (IH _ El'). pose proof (O' c x Hl Hc) as Hb.
        assert (ND : NoDup (l1 ++ x :: l2)) by (rewrite <- El; apply B').
        rewrite El in Hb, Hl. apply in_app_or in Hl as [Hl|[<-|Hl]]; [| |assumption].
        + exfalso. apply in_split in Hl as (y1 & y2 & ->). rewrite <- app_assoc in Hb, ND. cbn in Hb, ND.
          apply nodup_mid in ND as ND'. destruct ND' as [_ Nc].
          change (y1 ++ c :: y2 ++ x :: l2) with (y1 ++ [c] ++ (y2 ++ x :: l2)) in Hb.
          rewrite app_assoc in Hb. apply before_split in Hb; [|now rewrite <- app_assoc].
          destruct Hb as [Hb|[[_ Hb]|Hb]].
          * apply before_in in Hb as [Hb _]. rewrite app_comm_cons, app_assoc in ND. 
            apply nodup_mid in ND as [_ Nx]. apply Nx. rewrite !in_app_iff in *. cbn in *. tauto.
          * apply Nc. rewrite !in_app_iff in *. cbn in *. tauto.
          * apply before_in in Hb as [_ Hb]. apply Nc. rewrite !in_app_iff in *. cbn in *. tauto.
        + exfalso. apply before_irrefl in Hb; assumption. }
    now apply (H ops' []).
  - induction 1 as [v Hv Hs|v c Hc IH Ha].
    + destruct (in_dec Nat.eq_dec v ops'); [assumption|]. rewrite K in Hs by assumption. discriminate.
    + destruct P' as [B' O']. rewrite <- A in Ha by assumption. eapply args_in; eassumption.
Qed.

Lemma used_or_sink g b ops v : program TY g b ops -> is_unused g v = false ->
  is_sink (op_of g v) = true \/ exists c, In c ops /\ In v (args g c).
Proof.
  intros [B O] U. unfold is_unused in U. destruct (cons_of g v) as [|c cs] eqn:Ec; [left; now apply Bool.negb_false_iff|right].
  exists c. assert (Hc : In v (args g c)).
  { apply cnt_in. rewrite <- (bo_def_use _ _ _ B), Ec, cnt_cons. destruct (Nat.eq_dec c c); [lia|congruence]. }
  split; [|assumption]. destruct (in_dec Nat.eq_dec c ops) as [|N]; [assumption|].
  rewrite (bo_dead _ _ _ B c N) in Hc. destruct Hc.
Qed.

End Passes.

Lemma exec_keeps A g : forall ops e e', exec A g ops e = Some e' -> forall v, e v <> None -> e' v <> None.
Proof.
  induction ops as [|w t IH]; intros e e' H v Hv; cbn [exec] in H; [injection H as <-; assumption|].
  destruct (read_all A e (args g w)) as [xs|]; [|discriminate]. apply (IH _ _ H v).
  unfold set_env. destruct (v =? w); [discriminate|assumption].
Qed.
Lemma exec_all_set A g : forall ops e e', exec A g ops e = Some e' -> forall v, In v ops -> e' v <> None.
Proof.
  induction ops as [|w t IH]; intros e e' H v Hv; [destruct Hv|]. cbn [exec] in H.
  destruct (read_all A e (args g w)) as [xs|]; [|discriminate]. destruct Hv as [<-|Hv]; [|now apply (IH _ _ H)].
  apply (exec_keeps A g _ _ _ H). unfold set_env. rewrite Nat.eqb_refl. discriminate.
Qed.
