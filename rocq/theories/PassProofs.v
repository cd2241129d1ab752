From Coq Require Import String List Arith NArith ZArith Bool Ring Ring_theory Permutation Sorted Lia.
From Verif Require Import Outcome RangesModel RangesSpec RangesProofs RangesProps IrModel IrSpec IrProofs IrPassProofs.
From Verif Require Import FactorModel FactorSpec FactorProofs PassModel.
Import ListNotations.
Open Scope outcome_scope.
Open Scope nat_scope.

Section Passes.
Context {TY : typing}.

(** * New values placed between [l1] and [l2] *)
Record grown (b : nat) (g : graph) (l1 l2 new : list name) (g' : graph) : Prop := {
  gr_prog : program TY g' b ((l1 ++ new) ++ l2);
  gr_sim : sim g (l1 ++ l2) g' ((l1 ++ new) ++ l2);
  gr_old : forall n, n < g_next g -> op_of g' n = op_of g n /\ ty_of g' n = ty_of g n /\ args g' n = args g n
}.

Lemma grown_refl b g l1 l2 : program TY g b (l1 ++ l2) -> grown b g l1 l2 [] g.
Proof.
  intros P. split.
  - now rewrite app_nil_r.
  - rewrite app_nil_r. apply sim_refl.
  - intros. repeat split.
Qed.

Lemma grown_trans b g l1 l2 n1 g1 n2 g2 :
  grown b g l1 l2 n1 g1 -> grown b g1 (l1 ++ n1) l2 n2 g2 -> grown b g l1 l2 (n1 ++ n2) g2.
Proof.
  intros [P1 S1 O1] [P2 S2 O2]. rewrite <- (app_assoc l1 n1 n2) in *. split.
  - assumption.
  - eapply sim_trans; eassumption.
  - intros n Hn. pose proof (sim_next _ _ _ _ S1) as N. destruct (O1 n Hn) as (<- & <- & <-). apply O2. lia.
Qed.

Lemma grown_push b g l1 l2 o t l :
  program TY g b (l1 ++ l2) -> incl l l1 -> op_fits (T := TY) g o t l ->
  exists g', push_value g b o t l = Ok (g', g_next g) /\ grown b g l1 l2 [g_next g] g' /\
    op_of g' (g_next g) = o /\ ty_of g' (g_next g) = t /\
    (forall A (r : name -> D A), consistent r g' ((l1 ++ [g_next g]) ++ l2) -> r (g_next g) = sem A o (map r l)).
Proof.
  intros P I F. destruct (push_step g b l1 l2 o t l P I F) as (g' & E & P' & S' & N' & Eo & Et & Ea & Old).
  exists g'. split; [assumption|]. assert (Q : l1 ++ g_next g :: l2 = (l1 ++ [g_next g]) ++ l2) by now rewrite <- app_assoc.
  rewrite Q in *. split; [split; try assumption; intros n Hn; apply Old; lia|].
  split; [assumption|]. split; [assumption|]. intros A r C.
  rewrite (C (g_next g)) by (rewrite !in_app_iff; cbn; tauto). rewrite Eo, Ea. apply sem_maybe_sort.
Qed.

Lemma grown_cons b g l1 l2 new g' A (r : name -> D A) :
  program TY g b (l1 ++ l2) -> grown b g l1 l2 new g' ->
  consistent r g' ((l1 ++ new) ++ l2) -> consistent r g (l1 ++ l2).
Proof.
  intros [B _] [_ _ O] C v Hv. pose proof (bo_fresh _ _ _ B v Hv) as Hf.
  rewrite (C v) by (rewrite !in_app_iff in *; tauto). destruct (O v Hf) as (-> & _ & ->). reflexivity.
Qed.

Lemma grown_perm (l1 l2 new ops : list name) :
  Permutation (l1 ++ l2) ops -> Permutation ((l1 ++ new) ++ l2) (ops ++ new).
Proof.
  intros P. rewrite <- P. rewrite <- !app_assoc. apply Permutation_app_head. apply Permutation_app_comm.
Qed.

(** Finally one value is replaced by another computed before it. *)
Lemma replace_grown b g l1 v l2 new g' o :
  program TY g b (l1 ++ v :: l2) -> grown b g l1 (v :: l2) new g' ->
  In o (l1 ++ new) -> ty_of g' o = ty_of g v ->
  (forall A (r : name -> D A), consistent r g' ((l1 ++ new) ++ v :: l2) -> r v = r o) ->
  exists g'', replace_with g' v o = Ok g'' /\
    program TY g'' b ((l1 ++ new) ++ v :: l2) /\ sim g (l1 ++ v :: l2) g'' ((l1 ++ new) ++ v :: l2).
Proof.
  intros [B _] [P' S' O'] Ho Ht Hr.
  assert (Hv : In v (l1 ++ v :: l2)) by (apply in_or_app; right; now left).
  assert (Hv' : In v ((l1 ++ new) ++ v :: l2)) by (apply in_or_app; right; now left).
  assert (ND : NoDup ((l1 ++ new) ++ v :: l2)) by apply P'.
  destruct (replace_step (T := TY) g' b ((l1 ++ new) ++ v :: l2) v o) as (g'' & E & P2 & S2 & _); try assumption.
  - apply in_or_app. now left.
  - intros ->. apply nodup_mid in ND as [_ N]. apply N, in_or_app. now left.
  - rewrite Ht. apply O'. now apply (bo_fresh _ _ _ B).
  - intros c Hc Hvc. apply before_trans with v; [assumption| |].
    + exists (l1 ++ new), l2. now split.
    + destruct P' as [_ O2]. now apply O2.
  - exists g''. split; [assumption|]. split; [assumption|]. eapply sim_trans; eassumption.
Qed.

(** What every step of these passes provides. *)
Definition step_spec (b : nat) (f : graph * list name -> name -> outcome (graph * list name)) : Prop :=
  forall g ops l v, program TY g b l -> Permutation l ops -> In v l ->
    exists g' ops' l', f (g, ops) v = Ok (g', ops') /\ program TY g' b l' /\ Permutation l' ops' /\
      sim g l g' l' /\ incl l l'.

Lemma steps_fold b f : step_spec b f -> forall vs g ops l,
  program TY g b l -> Permutation l ops -> incl vs l ->
  exists g' ops' l', mfold f vs (g, ops) = Ok (g', ops') /\ program TY g' b l' /\ Permutation l' ops' /\
    sim g l g' l' /\ incl l l'.
Proof.
  intros F vs. induction vs as [|v vs IH]; intros g ops l P Q I.
  - exists g, ops, l. split; [reflexivity|]. split; [assumption|]. split; [assumption|]. split; [apply sim_refl|apply incl_refl].
  - cbn [mfold]. destruct (F g ops l v P Q) as (g1 & ops1 & l1 & E1 & P1 & Q1 & S1 & I1); [apply I; now left|].
    rewrite E1. cbn [bind]. destruct (IH g1 ops1 l1 P1 Q1) as (g2 & ops2 & l2 & E2 & P2 & Q2 & S2 & I2).
    { intros x Hx. apply I1, I. now right. }
    exists g2, ops2, l2. split; [assumption|]. split; [assumption|]. split; [assumption|].
    split; [eapply sim_trans; eassumption|eapply incl_tran; eassumption].
Qed.

Lemma finish_spec g b l ops :
  program TY g b l -> Permutation l ops ->
  exists g' out, finish b (g, ops) = Ok (g', out) /\ program TY g' b out /\ sim g l g' out.
Proof.
  intros P Q. pose proof (finish_pass g b l ops P Q) as F. unfold finish. cbn [fst snd].
  destruct (remove_unused g ops) as [g' ops1]. destruct F as (out & E & P' & S' & _).
  exists g', out. rewrite E. cbn [bind]. now split.
Qed.

Lemma pass_spec b f g ops :
  step_spec b f -> program TY g b ops ->
  exists g' out, (let* st := mfold f ops (g, ops) in finish b st) = Ok (g', out) /\
    program TY g' b out /\ sim g ops g' out.
Proof.
  intros F P. destruct (steps_fold b f F ops g ops ops P (Permutation_refl _) (incl_refl _))
    as (g1 & ops1 & l1 & E1 & P1 & Q1 & S1 & _).
  rewrite E1. cbn [bind]. destruct (finish_spec g1 b l1 ops1 P1 Q1) as (g' & out & E & P' & S').
  exists g', out. split; [assumption|]. split; [assumption|]. eapply sim_trans; eassumption.
Qed.

(** Nothing to do. *)
Lemma step_skip b g ops l : program TY g b l -> Permutation l ops ->
  exists g' ops' l', Ok (g, ops) = Ok (g', ops') /\ program TY g' b l' /\ Permutation l' ops' /\ sim g l g' l' /\ incl l l'.
Proof.
  intros P Q. exists g, ops, l. split; [reflexivity|]. split; [assumption|]. split; [assumption|].
  split; [apply sim_refl|apply incl_refl].
Qed.

(** Operands of a product or sum, their types and their place. *)
Lemma operands_before b g l1 v l2 a : program TY g b (l1 ++ v :: l2) -> In a (args g v) -> In a l1.
Proof.
  intros [B O] Ha. destruct (O v a) as (m1 & m2 & E & H); [apply in_or_app; right; now left|assumption|].
  assert (m1 = l1) as ->; [|assumption].
  pose proof (bo_nodup _ _ _ B) as ND. clear - E ND. revert m1 E. induction l1 as [|x l1 IH]; intros m1 E.
  - destruct m1 as [|y m1]; [reflexivity|]. injection E as <- E2. exfalso.
    inversion ND as [|? ? N _]. apply N. rewrite E2. apply in_or_app. right. now left.
  - destruct m1 as [|y m1].
    + injection E as -> E2. exfalso. inversion ND as [|? ? N _]. apply N. apply in_or_app. right. now left.
    + injection E as <- E2. f_equal. apply IH; [now inversion ND|assumption].
Qed.

Lemma fits_comm g o u l :
  commutative o = true -> u <> NBool -> 2 <= length l -> (forall a, In a l -> ty_of g a = TScalar u) ->
  op_fits (T := TY) g o (TScalar u) l.
Proof.
  intros C N L H. split; [split| |].
  - destruct o; try discriminate; reflexivity.
  - intros _. assumption.
  - intros _. exists u. repeat split; assumption.
  - destruct l as [|a l]; [cbn in L; lia|]. cbn [map]. rewrite (H a) by now left. now rewrite ft_comm.
  - destruct o; try discriminate; repeat split; discriminate.
  - destruct o; try discriminate; reflexivity.
  - intros a Ha. rewrite (H a Ha). discriminate.
Qed.

(** * Products *)
Section Products.
  Variable A : algebra.
  Add Ring Dring : (d_ring A).
  Definition prod (l : list (D A)) : D A := fold_right (dmul A) (d1 A) l.
  Definition sum (l : list (D A)) : D A := fold_right (dadd A) (d0 A) l.
  Lemma prod_app l l' : prod (l ++ l') = dmul A (prod l) (prod l').
  Proof. unfold prod. induction l as [|x t IH]; cbn; [ring|]. rewrite IH. ring. Qed.
  Lemma sum_app l l' : sum (l ++ l') = dadd A (sum l) (sum l').
  Proof. unfold sum. induction l as [|x t IH]; cbn; [ring|]. rewrite IH. ring. Qed.
  Lemma sum_scale c l : sum (map (dmul A c) l) = dmul A c (sum l).
  Proof. unfold sum. induction l as [|x t IH]; cbn; [ring|]. rewrite IH. ring. Qed.
  Lemma prod_one x : prod [x] = x.
  Proof. unfold prod. cbn. ring. Qed.
  Lemma sum_one x : sum [x] = x.
  Proof. unfold sum. cbn. ring. Qed.

  (** Factors of -1 only matter by their parity. *)
  Lemma prod_negatives {X} (r : X -> D A) (neg : X -> bool) l :
    (forall x, In x l -> neg x = true -> r x = dopp A (d1 A)) ->
    prod (map r l) = (if Nat.odd (length l - length (filter (fun x => negb (neg x)) l)) then dopp A else fun d => d)
                       (prod (map r (filter (fun x => negb (neg x)) l))).
  Proof.
    induction l as [|x t IH]; intros H; [reflexivity|].
    assert (Hl : length (filter (fun x => negb (neg x)) t) <= length t).
    { clear. induction t as [|y t IH]; cbn [filter length]; [lia|]. destruct (negb (neg y)); cbn [length]; lia. }
    cbn [map filter]. change (prod (r x :: map r t)) with (dmul A (r x) (prod (map r t))). rewrite IH by (intros y Hy; apply H; now right).
    destruct (neg x) eqn:E; cbn [negb length].
    - rewrite (H x) by (auto; now left).
      replace (S (length t) - length (filter (fun x => negb (neg x)) t)) with (S (length t - length (filter (fun x => negb (neg x)) t))) by lia.
      rewrite Nat.odd_succ, <- Nat.negb_odd. destruct (Nat.odd _); cbn [negb]; ring.
    - cbn [map]. change (prod (r x :: map r (filter (fun x => negb (neg x)) t))) with (dmul A (r x) (prod (map r (filter (fun x => negb (neg x)) t)))).
      destruct (Nat.odd _); ring.
  Qed.
End Products.

(** * Negations *)
Lemma nodup_bound l n : NoDup l -> (forall x, In x l -> x < n) -> length l <= n.
Proof.
  intros ND H. rewrite <- (seq_length n 0). apply NoDup_incl_length; [assumption|]. intros x Hx. apply in_seq. specialize (H x Hx). lia.
Qed.

Lemma is_negative_one_spec b g : forall fuel l1 v l2,
  program TY g b (l1 ++ v :: l2) -> length l1 < fuel ->
  exists z, is_negative_one fuel g v = Ok z /\
    (z = true -> forall A (r : name -> D A), consistent r g (l1 ++ v :: l2) -> r v = dopp A (d1 A)).
Proof.
  induction fuel as [|fuel IH]; intros l1 v l2 P L; [lia|].
  assert (Hv : In v (l1 ++ v :: l2)) by (apply in_or_app; right; now left).
  pose proof P as [B O]. pose proof (bo_arity _ _ _ B v Hv) as Ar. pose proof (bo_plain _ _ _ B v Hv) as Pl.
  cbn [is_negative_one].
  destruct (op_of g v) eqn:Eo; try (exists false; split; [reflexivity|discriminate]).
  - cbn in Ar. destruct (args g v) as [|a [|]] eqn:Ea; try discriminate.
    unfold first_operand. rewrite Ea. cbn [bind].
    assert (Ha : In a l1) by (apply (operands_before b g l1 v l2); [assumption|rewrite Ea; now left]).
    apply in_split in Ha as (m1 & m2 & ->).
    rewrite <- app_assoc in *. cbn [app] in *.
    destruct (IH m1 a (m2 ++ v :: l2)) as (z & Ez & Hz); [assumption|rewrite app_length in L; cbn in L; lia|].
    exists z. split; [assumption|]. intros Hzt A r C. rewrite (C v Hv), Eo, Ea. cbn [map].
    rewrite (Hz Hzt A r C). apply sem_cast_minus_one. intros ->. destruct Pl as (_ & _ & Pl). congruence.
  - destruct l; try (exists false; split; [reflexivity|discriminate]).
    eexists. split; [reflexivity|]. intros Hz A r C. apply Z.eqb_eq in Hz. subst z.
    cbn in Ar. destruct (args g v) as [|] eqn:Ea; [|discriminate].
    rewrite (C v Hv), Eo, Ea. apply sem_minus_one.
Qed.

Lemma others_spec b g l : program TY g b l -> forall k acc, incl k l ->
  exists neg : name -> bool,
    mfold (fun acc a => let* z := is_negative_one (S (g_next g)) g a in Ok (if z then acc else acc ++ [a])) k acc =
      Ok (acc ++ filter (fun a => negb (neg a)) k) /\
    forall a, In a k -> neg a = true -> forall A (r : name -> D A), consistent r g l -> r a = dopp A (d1 A).
Proof.
  intros P k acc I.
  set (neg := fun a => match is_negative_one (S (g_next g)) g a with Ok z => z | _ => false end).
  assert (N : forall a, In a l -> is_negative_one (S (g_next g)) g a = Ok (neg a) /\
                (neg a = true -> forall A (r : name -> D A), consistent r g l -> r a = dopp A (d1 A))).
  { intros a Ha. apply in_split in Ha as (m1 & m2 & ->).
    destruct (is_negative_one_spec b g (S (g_next g)) m1 a m2 P) as (z & E & H).
    - destruct P as [B _]. pose proof (nodup_bound _ (g_next g) (bo_nodup _ _ _ B) (bo_fresh _ _ _ B)) as L.
      rewrite app_length in L. cbn in L. lia.
    - unfold neg. rewrite E. now split. }
  exists neg. split; [|intros a Ha; apply N; now apply I].
  revert acc. induction k as [|a k IH]; intros acc; cbn [mfold filter].
  - now rewrite app_nil_r.
  - destruct (N a) as [-> _]; [apply I; now left|]. cbn [bind]. destruct (neg a); cbn [negb].
    + apply IH. intros x Hx. apply I. now right.
    + rewrite IH by (intros x Hx; apply I; now right). now rewrite <- app_assoc.
Qed.

Lemma filter_length_le {X} (f : X -> bool) l : length (filter f l) <= length l.
Proof. induction l as [|x t IH]; cbn [filter length]; [lia|]. destruct (f x); cbn [length]; lia. Qed.

Lemma negate_one_spec b : step_spec b (negate_one b).
Proof.
  intros g ops l v P Q Hv. unfold negate_one. destruct (is_mul (op_of g v)) eqn:Em; [|now apply step_skip].
  assert (Eo : op_of g v = OMul) by (destruct (op_of g v); congruence || discriminate).
  pose proof P as [B O].
  destruct (others_spec b g l P (args g v) []) as (neg & E & Hneg).
  { intros a Ha. eapply args_in; eassumption. }
  rewrite E. cbn [bind app].
  pose proof (filter_length_le (fun a => negb (neg a)) (args g v)) as Lf.
  assert (I : incl (filter (fun a => negb (neg a)) (args g v)) (args g v)) by (intros a Ha; now apply filter_In in Ha).
  assert (Pr : forall A (r : name -> D A), consistent r g l -> r v =
     (if Nat.odd (length (args g v) - length (filter (fun a => negb (neg a)) (args g v))) then dopp A else fun d => d)
       (prod A (map r (filter (fun a => negb (neg a)) (args g v))))).
  { intros A r C. rewrite (C v Hv), Eo, sem_mul. fold (prod A (map r (args g v))).
    apply prod_negatives. intros a Ha Hn. now apply (Hneg a Ha Hn A r). }
  remember (filter (fun a => negb (neg a)) (args g v)) as others eqn:Eothers. clear Eothers E.
  destruct (length (args g v) - length others) as [|n] eqn:En; [now apply step_skip|].
  destruct others as [|x others]; [now apply step_skip|].
  destruct (bo_scalar _ _ _ B v Hv) as (u & Tu & Nu & Hu); [now rewrite Eo|].
  apply in_split in Hv as (l1 & l2 & ->).
  assert (Io : incl (x :: others) l1).
  { intros a Ha. apply (operands_before b g l1 v l2 a P). now apply I. }
  assert (To : forall a, In a (x :: others) -> ty_of g a = TScalar u) by (intros a Ha; apply Hu; now apply I).
  (* the positive part *)
  assert (Pos : exists g1 p new,
    match x :: others with [y] => Ok (g, y) | _ => push_value g b OMul (ty_of g v) (x :: others) end = Ok (g1, p) /\
    grown b g l1 (v :: l2) new g1 /\ In p (l1 ++ new) /\ ty_of g1 p = TScalar u /\
    (if 1 <? length (x :: others) then ops ++ [p] else ops) = ops ++ new /\
    forall A (r : name -> D A), consistent r g1 ((l1 ++ new) ++ v :: l2) -> r p = prod A (map r (x :: others))).
  { destruct others as [|y others].
    - exists g, x, []. split; [reflexivity|]. split; [now apply grown_refl|]. rewrite !app_nil_r.
      split; [apply Io; now left|]. split; [apply To; now left|]. split; [reflexivity|]. intros A r _. cbn [map]. now rewrite prod_one.
    - destruct (grown_push b g l1 (v :: l2) OMul (TScalar u) (x :: y :: others) P Io) as (g1 & E1 & G1 & O1 & T1 & V1).
      { apply fits_comm; [reflexivity|assumption|cbn; lia|assumption]. }
      exists g1, (g_next g), [g_next g]. rewrite Tu. split; [assumption|]. split; [assumption|].
      split; [apply in_or_app; right; now left|]. split; [assumption|]. split; [reflexivity|].
      intros A r C. rewrite (V1 A r C). apply sem_mul. }
  destruct Pos as (g1 & p & new & E1 & G1 & Ip & Tp & Eops & Vp).
  replace (match others with [] => Ok (g, x) | _ :: _ => push_value g b OMul (ty_of g v) (x :: others) end) with (Ok (g1, p))
    by (rewrite <- E1; destruct others; reflexivity).
  cbn [bind]. rewrite Eops.
  destruct (Nat.odd (S n)).
  - (* a negation *)
    assert (Fn : op_fits (T := TY) g1 ONeg (TScalar u) [p]).
    { split; [split| |]; try discriminate; try reflexivity.
      - cbn [map]. now rewrite Tp, ft_neg.
      - repeat split; discriminate.
      - intros a [<-|[]]. rewrite Tp. discriminate. }
    destruct (grown_push b g1 (l1 ++ new) (v :: l2) ONeg (TScalar u) [p]) as (g2 & E2 & G2 & O2 & T2 & V2); [apply G1| |assumption|].
    { intros a [<-|[]]. assumption. }
    pose proof G1 as [PG SG OG]. destruct (OG v) as (_ & TG & _).
    { destruct B. apply bo_fresh, in_or_app. right. now left. }
    rewrite TG, Tu, E2. cbn [bind].
    pose proof (grown_trans _ _ _ _ _ _ _ _ G1 G2) as G12.
    destruct (replace_grown b g l1 v l2 (new ++ [g_next g1]) g2 (g_next g1) P G12) as (g3 & E3 & P3 & S3).
    + rewrite !in_app_iff. cbn. tauto.
    + now rewrite T2, Tu.
    + intros A r C. rewrite (app_assoc l1) in C. rewrite (V2 A r C). cbn [map].
      pose proof (grown_cons _ _ _ _ _ _ A r PG G2 C) as C1.
      pose proof (grown_cons _ _ _ _ _ _ A r P G1 C1) as C0.
      rewrite (Vp A r C1), sem_neg. apply (Pr A r C0).
    + rewrite E3. cbn [bind]. exists g3, ((ops ++ new) ++ [g_next g1]), ((l1 ++ new ++ [g_next g1]) ++ v :: l2).
      split; [reflexivity|]. split; [assumption|]. split.
      * rewrite <- (app_assoc ops). now apply grown_perm.
      * split; [assumption|]. intros a. rewrite !in_app_iff. cbn. tauto.
  - destruct (replace_grown b g l1 v l2 new g1 p P G1) as (g3 & E3 & P3 & S3).
    + assumption.
    + now rewrite Tu.
    + intros A r C. rewrite (Vp A r C). apply (Pr A r). now apply (grown_cons _ _ _ _ _ _ A r P G1).
    + rewrite E3. cbn [bind]. exists g3, (ops ++ new), ((l1 ++ new) ++ v :: l2).
      split; [reflexivity|]. split; [assumption|]. split.
      * now apply grown_perm.
      * split; [assumption|]. intros a. rewrite !in_app_iff. cbn. tauto.
Qed.

Theorem insert_negations_spec g b ops : program TY g b ops ->
  exists g' out, insert_negations b (g, ops) = Ok (g', out) /\ program TY g' b out /\ sim g ops g' out.
Proof. intros P. apply (pass_spec b (negate_one b)); [apply negate_one_spec|assumption]. Qed.

(** * Merging products *)
Lemma flatten_prod A (r : name -> D A) g l k :
  consistent r g l -> incl k l ->
  prod A (map r (flat_map (fun a => if is_mul (op_of g a) then args g a else [a]) k)) = prod A (map r k).
Proof.
  intros C. induction k as [|a k IH]; intros I; [reflexivity|]. cbn [flat_map]. rewrite map_app, prod_app.
  rewrite IH by (intros x Hx; apply I; now right).
  change (prod A (map r (a :: k))) with (dmul A (r a) (prod A (map r k))). f_equal.
  destruct (is_mul (op_of g a)) eqn:E.
  - assert (Eo : op_of g a = OMul) by (destruct (op_of g a); congruence || discriminate).
    rewrite (C a) by (apply I; now left). rewrite Eo, sem_mul. reflexivity.
  - cbn [map]. apply prod_one.
Qed.

(** No product is an operand of [v]. *)
Definition flat (g : graph) (v : name) : Prop := op_of g v = OMul -> forall a, In a (args g v) -> op_of g a <> OMul.
Lemma flat_map_longer {X} (f : X -> list X) l :
  (forall a, In a l -> f a = [a] \/ 2 <= length (f a)) -> length (flat_map f l) <= length l -> forall a, In a l -> f a = [a].
Proof.
  induction l as [|x t IH]; intros H L a Ha; [destruct Ha|]. cbn [flat_map] in L. rewrite app_length in L. cbn [length] in L.
  assert (Lt : length t <= length (flat_map f t)).
  { assert (Ht : forall a, In a t -> f a = [a] \/ 2 <= length (f a)) by (intros y Hy; apply H; now right).
    clear - Ht. induction t as [|y t IH]; cbn [flat_map length]; [lia|]. rewrite app_length.
    assert (1 <= length (f y)) by (destruct (Ht y (or_introl eq_refl)) as [->|]; cbn; lia).
    specialize (IH (fun a Ha => Ht a (or_intror Ha))). lia. }
  destruct (H x (or_introl eq_refl)) as [Ex|Lx]; [|lia]. rewrite Ex in L. cbn [length] in L.
  destruct Ha as [<-|Ha]; [assumption|]. apply IH; [intros y Hy; apply H; now right|lia|assumption].
Qed.

Lemma merge_one_spec g b l v : program TY g b l -> In v l ->
  exists g', merge_one g v = Ok g' /\ program TY g' b l /\ sim g l g' l /\
    (forall n, op_of g' n = op_of g n) /\ (forall n, n <> v -> args g' n = args g n) /\
    ((forall a, In a (args g v) -> flat g a) -> flat g' v).
Proof.
  intros P Hv. unfold merge_one. pose proof P as [B O].
  assert (Skip : flat g v -> exists g', Ok g = Ok g' /\ program TY g' b l /\ sim g l g' l /\
    (forall n, op_of g' n = op_of g n) /\ (forall n, n <> v -> args g' n = args g n) /\
    ((forall a, In a (args g v) -> flat g a) -> flat g' v)).
  { intros F. exists g. split; [reflexivity|]. split; [assumption|]. split; [apply sim_refl|]. auto. }
  assert (Im : forall o, is_mul o = true <-> o = OMul) by (intros o; destruct o; cbn; split; congruence).
  destruct (is_mul (op_of g v)) eqn:E; [|apply Skip; intros K; apply Im in K; congruence].
  assert (Eo : op_of g v = OMul) by now apply Im.
  destruct (Nat.ltb_spec (length (args g v)) (length (flat_map (fun a => if is_mul (op_of g a) then args g a else [a]) (args g v)))) as [L|L].
  2: { apply Skip. intros _ a Ha K.
       pose proof (flat_map_longer (fun a => if is_mul (op_of g a) then args g a else [a]) (args g v)) as F.
       assert (M : forall x, In x (args g v) -> op_of g x = OMul -> 2 <= length (args g x)).
       { intros x Hx Ex. apply (bo_many _ _ _ B x); [eapply args_in; eassumption|now rewrite Ex]. }
       cbn beta in F. assert (Ea : (if is_mul (op_of g a) then args g a else [a]) = [a]).
       { apply F; [|assumption|assumption]. intros x Hx.
         destruct (is_mul (op_of g x)) eqn:Ex; [right; apply M; [assumption|now apply Im]|now left]. }
       rewrite (proj2 (Im (op_of g a)) K) in Ea. specialize (M a Ha K). rewrite Ea in M. cbn in M. lia. }
  destruct (bo_scalar _ _ _ B v Hv) as (u & Tu & Nu & Hu); [now rewrite Eo|].
  pose proof (bo_many _ _ _ B v Hv) as Lm. rewrite Eo in Lm. specialize (Lm eq_refl).
  assert (Hin : forall x, In x (flat_map (fun a => if is_mul (op_of g a) then args g a else [a]) (args g v)) ->
                 before l x v /\ ty_of g x = TScalar u).
  { intros x Hx. apply in_flat_map in Hx as (a & Ha & Hx).
    pose proof (O v a Hv Ha) as Hb. assert (Hal : In a l) by now apply before_in in Hb.
    destruct (is_mul (op_of g a)) eqn:Ea.
    - assert (Eoa : op_of g a = OMul) by (destruct (op_of g a); congruence || discriminate).
      destruct (bo_scalar _ _ _ B a Hal) as (u' & Tu' & _ & Hu'); [now rewrite Eoa|].
      split; [eapply before_trans; [apply B| |exact Hb]; now apply O|].
      rewrite (Hu' x Hx), <- Tu'. now apply Hu.
    - destruct Hx as [<-|[]]. split; [assumption|now apply Hu]. }
  destruct (set_op_step (T := TY) g b l v OMul (ty_of g v) (flat_map (fun a => if is_mul (op_of g a) then args g a else [a]) (args g v)))
    as (g' & E' & P' & S' & _ & O' & A' & _); try assumption.
  - rewrite Tu. apply fits_comm; [reflexivity|assumption|lia|]. intros a Ha. now apply Hin.
  - reflexivity.
  - intros a Ha. now apply Hin.
  - rewrite Eo. discriminate.
  - intros A r C. rewrite sem_mul. fold (prod A (map r (flat_map (fun a => if is_mul (op_of g a) then args g a else [a]) (args g v)))).
    rewrite (flatten_prod A r g l); [|assumption|intros a Ha; eapply args_in; eassumption].
    rewrite (C v Hv), Eo, sem_mul. reflexivity.
  - assert (O2 : forall n, op_of g' n = op_of g n).
    { intros n. rewrite O'. destruct (Nat.eqb_spec n v) as [->|]; congruence. }
    exists g'. split; [assumption|]. split; [assumption|]. split; [assumption|]. split; [assumption|]. split.
    + intros n N. rewrite A'. now apply Nat.eqb_neq in N as ->.
    + intros F _ a Ha. rewrite A', Nat.eqb_refl in Ha. rewrite O2.
      apply (Permutation_in a (maybe_sort_perm OMul _)) in Ha. apply in_flat_map in Ha as (x & Hx & Ha).
      destruct (is_mul (op_of g x)) eqn:Ex.
      * apply (F x Hx); [now apply Im|assumption].
      * destruct Ha as [<-|[]]. intros K. apply Im in K. congruence.
Qed.

Lemma merge_fold b : forall vs p g, program TY g b (p ++ vs) -> (forall v, In v p -> flat g v) ->
  exists g', mfold merge_one vs g = Ok g' /\ program TY g' b (p ++ vs) /\ sim g (p ++ vs) g' (p ++ vs) /\
    (forall v, In v (p ++ vs) -> flat g' v).
Proof.
  induction vs as [|v vs IH]; intros p g P F.
  - exists g. rewrite app_nil_r in *. split; [reflexivity|]. split; [assumption|]. split; [apply sim_refl|assumption].
  - cbn [mfold]. assert (Hv : In v (p ++ v :: vs)) by (apply in_or_app; right; now left).
    destruct (merge_one_spec g b (p ++ v :: vs) v P Hv) as (g1 & E1 & P1 & S1 & O1 & A1 & F1).
    assert (ND : NoDup (p ++ v :: vs)) by apply P. apply nodup_mid in ND as [_ ND].
    rewrite E1. cbn [bind]. replace (p ++ v :: vs) with ((p ++ [v]) ++ vs) in * by now rewrite <- app_assoc.
    destruct (IH (p ++ [v]) g1 P1) as (g2 & E2 & P2 & S2 & F2).
    + intros x Hx. apply in_app_or in Hx as [Hx|[<-|[]]].
      * assert (N : x <> v) by (intros ->; apply ND, in_or_app; now left).
        intros K a Ha. rewrite O1 in K. rewrite O1. rewrite A1 in Ha by assumption. now apply (F x Hx).
      * apply F1. intros a Ha. apply F. apply (operands_before b g p v vs a); [|assumption].
        replace (p ++ v :: vs) with ((p ++ [v]) ++ vs) by now rewrite <- app_assoc. assumption.
    + exists g2. split; [assumption|]. split; [assumption|]. split; [eapply sim_trans; eassumption|assumption].
Qed.

Theorem merge_multiplications_spec g b ops : program TY g b ops ->
  exists g' ops', merge_multiplications_in_block (g, ops) = Ok (g', ops') /\ program TY g' b ops' /\ sim g ops g' ops' /\
    (forall v, In v ops' -> flat g' v).
Proof.
  intros P. unfold merge_multiplications_in_block. cbn [fst snd].
  destruct (merge_fold b ops [] g P) as (g1 & E1 & P1 & S1 & F1); [intros v []|]. cbn [app] in *. rewrite E1. cbn [bind].
  destruct (remove_unused_live g1 b ops P1) as (g2 & ops2 & E2 & P2 & S2 & I2 & _ & K2). rewrite E2.
  exists g2, ops2. split; [reflexivity|]. split; [assumption|]. split; [eapply sim_trans; eassumption|].
  intros v Hv K a Ha. destruct (K2 v Hv) as [Ko Ka]. rewrite Ko in K. rewrite Ka in Ha.
  assert (Hal : In a ops2) by (destruct P2 as [_ O2]; rewrite <- Ka in Ha; eapply args_in; eassumption).
  destruct (K2 a Hal) as [-> _]. apply (F1 v); [now apply I2|assumption|assumption].
Qed.

End Passes.
