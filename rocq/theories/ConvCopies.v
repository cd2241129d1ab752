(** Removing copies within a block. *)
From Coq Require Import String List Arith ZArith Bool Lia Permutation.
From Verif Require Import Outcome NumProofs IrModel IrSpec IrProofs CfgModel CfgSpec CountProofs ConvModel ConvSpec ConvShape ConvBlocks ConvGroup ConvInv.
Import ListNotations.
Open Scope outcome_scope.
Open Scope nat_scope.

Lemma last_kept {B} (l1 l2 l : list B) v x : l1 ++ v :: l2 = l ++ [x] -> v <> x -> exists l', l1 ++ l2 = l' ++ [x].
Proof.
  intros E N. destruct (rev l2) as [|y q] eqn:Er.
  - apply (f_equal (@rev B)) in Er. rewrite rev_involutive in Er. cbn in Er. subst l2. apply app_inj_tail in E. destruct E. contradiction.
  - apply (f_equal (@rev B)) in Er. rewrite rev_involutive in Er. cbn in Er. subst l2.
    change (v :: rev q ++ [y]) with ((v :: rev q) ++ [y]) in E. rewrite app_assoc in E. apply app_inj_tail in E. destruct E as [_ ->].
    exists (l1 ++ rev q). now rewrite app_assoc.
Qed.

Section Copies.
Variables (A : algebra) (Q : selecting A) (g0 : graph) (r : name -> D A) (opts : list (nat * string)) (down up : nat -> list nat) (n e : nat).
Notation N0 := (g_next g0).

(** What is kept: everything about blocks, and where the outputs are. *)
Record settled (g : graph) (ops : nat -> list name) : Prop := {
  s_core : core A Q r g ops down up n e;
  s_ar : forall v t, In v (ops t) -> arity_ok (op_of g v) (length (args g v)) = true;
  s_opt : forall B key, In (B, key) opts -> exists J l jv cq, length (down J) = 2 /\ ops J = l ++ [jv] /\ args g jv = [cq] /\
    op_of g cq = OOutReq key /\ args g cq = [] /\ parent g cq = S J /\ splits down up J B 0;
  s_one : forall t, length (down t) = 1 -> ops t <> [];
  s_req : forall v u k, v < N0 -> op_of g0 v = OSave u k -> op_of g v = OSave u k /\ exists t, In v (ops t) /\ (u <> 0 -> t = 0) /\ (u = 0 -> In (t, k) opts);
  s_only : forall v t u k, In v (ops t) -> op_of g v = OSave u k -> v < N0 /\ op_of g0 v = OSave u k;
  s_lt : forall v a, In a (args g v) -> a < g_next g;
  s_ctl : forall a c, In a (args g c) -> op_of g a <> OJump /\ (forall u k, op_of g a <> OSave u k) /\
    forall key, op_of g a = OOutReq key -> N0 <= a -> op_of g c = OJump /\ parent g c = parent g a;
  s_phi : forall v w, op_of g w = OPhi -> In v (args g w) -> exists t, In w (ops t);
  s_jreq : forall x J key, N0 <= x -> op_of g x = OOutReq key -> parent g x = S J ->
    exists l r B, down J = [l; r] /\ In B (up r) /\ B <> J;
  s_old : forall v w key, In v (args g w) -> v < N0 -> op_of g v = OOutReq key -> op_of g0 v = OOutReq key /\ exists w0, In v (args g0 w0);
  s_ret : forall v k, v < N0 -> op_of g0 v = OSave 2 k -> (forall w k', w < N0 -> op_of g0 w = OSave 2 k' -> w = v) -> exists l, ops 0 = l ++ [v];
  s_keep : forall v t, In v (ops t) -> (v < N0 /\ op_of g v = op_of g0 v /\ length (args g v) = length (args g0 v)) \/ made opts (op_of g v);
  s_key : forall B key, In (B, key) opts -> exists v, v < N0 /\ op_of g0 v = OSave 0 key
}.

Lemma copy_settled g ops t l1 v l2 a g1 g2 ops' : settled g ops -> ops t = l1 ++ v :: l2 ->
  (ops' t = l1 ++ l2) -> (forall u, u <> t -> ops' u = ops u) ->
  op_of g v = OCopy -> first_operand g v = Ok a -> parent g a = parent g v -> replace_with g v a = Ok g1 -> remove_value g1 v = Ok g2 ->
  settled g2 ops' /\ (forall x, op_of g2 x = op_of g x) /\ (forall x, parent g2 x = parent g x) /\ g_next g2 = g_next g.
Proof.
  intros S Et Et' Eu Ov Fa Pa E1 E2. destruct S as [[Sh U Ow ND Avl Ju Tw Ph Va] Ar Opt One Req Only Lt Ctl Phi Jreq Old Ret Kp Ky].
  assert (Kv : In v (ops t)) by (rewrite Et, in_app_iff; right; now left).
  assert (Av : args g v = [a]).
  { unfold first_operand in Fa. pose proof (Ar v t Kv) as X. rewrite Ov in X. destruct (args g v) as [|a' [|b q]]; try discriminate. congruence. }
  assert (Pt : parent g a = S t) by (rewrite Pa; auto).
  destruct (Avl v t a t Kv) as (_ & Ka & Bav); [congruence|rewrite Av; now left|auto|]. specialize (Bav eq_refl).
  assert (Nva : v <> a) by (intros X; rewrite <- X in Bav; exact (before_irrefl _ _ (ND t) Bav)).
  destruct (replace_with_spec g v a U Nva) as (g1' & X & G1 & O1 & _ & P1 & Ap1 & Ae1 & An1 & _ & U1 & C1). rewrite X in E1. injection E1 as E1. subst g1.
  rename g1' into g1.
  destruct (remove_value_spec g1 v U1 C1) as (g2' & X' & G2 & O2 & _ & P2 & A2 & U2 & _ & _). rewrite X' in E2. injection E2 as E2. subst g2. rename g2' into g2. clear X X'.
  assert (Rva : r v = r a). { rewrite (Va v t Kv) by congruence. rewrite Ov, Av. cbn. apply sem_copy. }
  assert (OO : forall x, op_of g2 x = op_of g x) by (intros x; rewrite O2, O1; auto).
  assert (PP : forall x, parent g2 x = parent g x) by (intros x; rewrite P2, P1; auto).
  assert (SUB : forall x, x <> v -> (forall b, In b (args g2 x) -> exists b0, In b0 (args g x) /\ b = subst_name v a b0) /\ length (args g2 x) = length (args g x) /\
     (commutative (op_of g x) = false -> args g2 x = map (subst_name v a) (args g x)) /\ Permutation (args g2 x) (map (subst_name v a) (args g x))).
  { intros x Nx. rewrite A2. destruct (Nat.eqb_spec x v); [contradiction|]. split; [|split; [|split]]; auto.
    - intros b Kb. apply (Permutation_in _ (Ap1 x)) in Kb. apply in_map_iff in Kb. destruct Kb as (b0 & Y1 & Y2). eauto.
    - rewrite (Permutation_length (Ap1 x)). apply map_length. }
  assert (NDt := ND t). rewrite Et in NDt.
  assert (Nin : forall x u, In x (ops' u) -> x <> v /\ In x (ops u)).
  { intros x u K. destruct (Nat.eq_dec u t) as [->|Nu].
    - rewrite Et' in K. assert (In x (ops t)) by (rewrite Et; rewrite in_app_iff in *; cbn; tauto). split; auto.
      intros ->. apply NoDup_remove_2 in NDt. contradiction.
    - rewrite Eu in K by auto. split; auto. intros ->. apply Ow in K. rewrite (Ow v t Kv) in K. congruence. }
  assert (Stay : forall x u, In x (ops u) -> x <> v -> In x (ops' u)).
  { intros x u K Nx. destruct (Nat.eq_dec u t) as [->|Nu]; [|rewrite Eu; auto]. rewrite Et' , in_app_iff. rewrite Et, in_app_iff in K. cbn in K. intuition congruence. }
  assert (Bef : forall u x y, before (ops u) x y -> x <> v -> y <> v -> before (ops' u) x y).
  { intros u x y B Nx Ny. destruct (Nat.eq_dec u t) as [->|Nu]; [|rewrite Eu; auto]. rewrite Et'. rewrite Et in B. apply (before_remove l1 v l2); auto. }
  assert (Last : forall u l x, ops u = l ++ [x] -> x <> v -> exists l', ops' u = l' ++ [x]).
  { intros u l x El Nx. destruct (Nat.eq_dec u t) as [->|Nu]; [|rewrite Eu; eauto]. rewrite Et'. rewrite Et in El. apply (last_kept l1 l2 l v x); auto. }
  assert (Sin : forall x u, In x (ops u) -> In (subst_name v a x) (ops' u)).
  { intros x u K. unfold subst_name. destruct (Nat.eqb_spec x v) as [Ex|Nx]; [|auto]. subst x. assert (u = t) by (apply Ow in K; rewrite (Ow v t Kv) in K; congruence). subst u. apply Stay; auto. }
  assert (Rs : forall x, r (subst_name v a x) = r x) by (intros x; unfold subst_name; destruct (Nat.eqb_spec x v); congruence).
  split; [|split; [|split]]; auto; [|congruence]. constructor.
  - constructor; auto.
    + intros x u K. rewrite PP. apply Ow. apply (Nin x u K).
    + intros u. destruct (Nat.eq_dec u t) as [->|Nu]; [|rewrite Eu; auto]. rewrite Et'. now apply NoDup_remove_1 in NDt.
    + intros x u b w K Np Kb Pb. rewrite OO in Np. rewrite PP in Pb. destruct (Nin x u K) as [Nx Kx].
      destruct (SUB x Nx) as (SB & _). destruct (SB b Kb) as (b0 & Kb0 & Eb). unfold subst_name in Eb. destruct (Nat.eqb_spec b0 v) as [Ebv|Nbv].
      * subst b0 b. rewrite Pt in Pb. injection Pb as <-. destruct (Avl x u v t Kx Np Kb0 (Ow v t Kv)) as (Y1 & Y2 & Y3). split; [auto|]. split; [apply Stay; auto|].
        intros Ewu. specialize (Y3 Ewu). subst u. apply Bef; auto. apply (before_trans _ a v x); auto.
      * subst b0. destruct (Avl x u b w Kx Np Kb0 Pb) as (Y1 & Y2 & Y3). split; [auto|]. split; [apply Stay; auto|]. intros Ewu. apply Bef; auto.
    + intros x u K Ex. rewrite OO in Ex. destruct (Nin x u K) as [Nx Kx]. destruct (Ju x u Kx Ex) as (Y1 & l & Y2). split; auto. apply (Last u l); auto.
    + intros u K. destruct (Tw u K) as (l & jv & cd & Y1 & Y2 & Y3). assert (Nj : jv <> v) by congruence. destruct (Last u l jv Y1 Nj) as (l' & Y4).
      exists l', jv, (subst_name v a cd). rewrite OO. split; auto. split; auto. destruct (SUB jv Nj) as (_ & _ & S3 & _). rewrite S3 by now rewrite Y2. rewrite Y3. reflexivity.
    + intros x o K Ex. rewrite OO in Ex. destruct (Nin x o K) as [Nx Kx].
      destruct (Ph x o Kx Ex) as (L & R & cl & cr & J & l & jv & cd & Y1 & Y2 & Y3 & Y4 & Y5 & Y6 & Y7 & Y8 & Y9 & Y10 & Y11).
      destruct (Tw J Y6) as (l' & jv' & cd' & Z1 & Z2 & Z3). rewrite Y7 in Z1. apply app_inj_tail in Z1. destruct Z1 as [_ Z1]. subst jv'.
      assert (Nj : jv <> v) by congruence. destruct (Last J l jv Y7 Nj) as (l'' & Z4).
      exists L, R, (subst_name v a cl), (subst_name v a cr), J, l'', jv, (subst_name v a cd).
      destruct (SUB x Nx) as (_ & _ & S3 & _). rewrite S3 by now rewrite Ex. destruct (SUB jv Nj) as (_ & _ & S4 & _). rewrite S4 by now rewrite Z2. rewrite Y1, Y8. cbn [map]. rewrite !Rs.
      split; [auto|]. split; [auto|]. split; [auto|]. split; [auto|]. split; [auto|]. split; [auto|]. split; [auto|]. split; [auto|]. auto.
    + intros x u K Np. rewrite OO in *. destruct (Nin x u K) as [Nx Kx]. rewrite (Va x u Kx Np). destruct (SUB x Nx) as (_ & _ & S3 & S4).
      destruct (commutative (op_of g x)) eqn:Ec.
      * apply sem_comm_perm; auto. symmetry. rewrite <- (subst_map A r v a (args g x) Rva). now apply Permutation_map.
      * rewrite (S3 eq_refl). now rewrite (subst_map A r v a).
  - intros x u K. destruct (Nin x u K) as [Nx Kx]. destruct (SUB x Nx) as (_ & S2 & _). rewrite OO, S2. apply (Ar x u Kx).
  - intros B key K. destruct (Opt B key K) as (J & l & jv & cq & Y1 & Y2 & Y3 & Y4 & Y5 & Y6 & Y7).
    destruct (Tw J Y1) as (l' & jv' & cd' & Z1 & Z2 & Z3). rewrite Y2 in Z1. apply app_inj_tail in Z1. destruct Z1 as [_ Z1]. subst jv'.
    assert (Nj : jv <> v) by congruence. destruct (Last J l jv Y2 Nj) as (l'' & Z4). assert (Nq : cq <> v) by congruence.
    exists J, l'', jv, cq. destruct (SUB jv Nj) as (_ & _ & S4 & _). rewrite S4 by now rewrite Z2. rewrite Y3. cbn [map]. unfold subst_name at 1. destruct (Nat.eqb_spec cq v); [contradiction|].
    rewrite OO, PP. destruct (SUB cq Nq) as (_ & _ & S5 & _). rewrite S5 by now rewrite Y4. rewrite Y5. cbn [map]. split; [auto|]. split; [auto|]. split; [auto|]. auto.
  - intros u K Z. specialize (One u K). destruct (Nat.eq_dec u t) as [->|Nu]; [|rewrite Eu in Z; auto]. assert (In a (ops' t)) as W by (apply Stay; auto). rewrite Z in W. contradiction.
  - intros x u k L Ex. destruct (Req x u k L Ex) as (Y1 & w & Y2 & Y3). rewrite OO. split; auto. exists w. split; auto. apply Stay; auto. congruence.
  - intros x u w k K Ex. rewrite OO in Ex. apply (Only x u w k); auto. apply (Nin x u K).
  - intros x b K. rewrite G2, G1. destruct (Nat.eq_dec x v) as [Ex|Nx]; [rewrite A2, Ex, Nat.eqb_refl in K; contradiction|].
    destruct (SUB x Nx) as (SB & _). destruct (SB b K) as (b0 & Kb0 & ->). unfold subst_name. destruct (b0 =? v); [|apply (Lt x b0 Kb0)]. apply (Lt v a). rewrite Av. now left.
  - intros b x K. rewrite !OO, !PP. destruct (Nat.eq_dec x v) as [Ex|Nx]; [rewrite A2, Ex, Nat.eqb_refl in K; contradiction|].
    destruct (SUB x Nx) as (SB & _). destruct (SB b K) as (b0 & Kb0 & ->). unfold subst_name. destruct (Nat.eqb_spec b0 v) as [->|]; [|apply (Ctl b0 x Kb0)].
    destruct (Ctl a v) as (X1 & X2 & X3); [rewrite Av; now left|]. split; auto. split; auto. intros key Ek La. destruct (X3 key Ek La). congruence.
  - intros b x Ex K. rewrite OO in Ex. destruct (Nat.eq_dec x v) as [Exv|Nx]; [congruence|]. destruct (SUB x Nx) as (SB & _). destruct (SB b K) as (b0 & Kb0 & _).
    destruct (Phi b0 x Ex Kb0) as (u & Ku). exists u. apply Stay; auto.
  - intros x J key Lx. rewrite OO, PP. apply Jreq. exact Lx.
  - intros b x key K Lb. rewrite OO. destruct (Nat.eq_dec x v) as [Ex|Nx]; [rewrite A2, Ex, Nat.eqb_refl in K; contradiction|].
    destruct (SUB x Nx) as (SB & _). destruct (SB b K) as (b0 & Kb0 & Eb). unfold subst_name in Eb. destruct (b0 =? v); subst b; [|apply (Old b0 x key Kb0 Lb)].
    apply (Old a v key); auto. rewrite Av. now left.
  - intros x k Lx Ex Ux. destruct (Ret x k Lx Ex Ux) as (l & El). apply (Last 0 l x El). destruct (Req x 2 k Lx Ex) as (Y & _). congruence.
  - intros x u K. destruct (Nin x u K) as [Nx Kx]. destruct (SUB x Nx) as (_ & S2 & _). rewrite OO, S2. now apply (Kp x u).
  - exact Ky.
Qed.

Lemma copies_block t : forall l g ops kept g' kept', settled g ops -> ops t = kept ++ l -> mfold copy_step l (g, kept) = Ok (g', kept') ->
  exists ops', settled g' ops' /\ ops' t = kept' /\ (forall u, u <> t -> ops' u = ops u) /\ (forall x, parent g' x = parent g x) /\ g_next g' = g_next g.
Proof.
  induction l as [|v l IH]; intros g ops kept g' kept' S Et E.
  - cbn in E. injection E as <- <-. exists ops. rewrite app_nil_r in Et. auto.
  - cbn [mfold] in E. unfold copy_step at 1 in E. assert (Keep : mfold copy_step l (g, kept ++ [v]) = Ok (g', kept') -> exists ops', settled g' ops' /\ ops' t = kept' /\ (forall u, u <> t -> ops' u = ops u) /\ (forall x, parent g' x = parent g x) /\ g_next g' = g_next g).
    { apply IH; auto. rewrite <- app_assoc. exact Et. }
    destruct (is_copy (op_of g v)) eqn:Ec; cbn [bind] in E; [|auto].
    destruct (first_operand g v) as [a| | | |] eqn:Ef; cbn [bind] in E; try discriminate.
    destruct (Nat.eqb_spec (parent g a) (parent g v)) as [Pa|Na]; cbn [bind] in E; [|auto].
    destruct (replace_with g v a) as [g1| | | |] eqn:E1; cbn [bind] in E; try discriminate.
    destruct (remove_value g1 v) as [g2| | | |] eqn:E2; cbn [bind] in E; try discriminate.
    assert (Ov : op_of g v = OCopy) by (destruct (op_of g v); try discriminate; auto).
    destruct (copy_settled g ops t kept v l a g1 g2 (fun u => if u =? t then kept ++ l else ops u) S Et) as (S2 & _ & P2 & G2); auto.
    { now rewrite Nat.eqb_refl. } { intros u Nu. destruct (Nat.eqb_spec u t); [contradiction|auto]. }
    destruct (IH _ _ _ g' kept' S2 ltac:(cbn beta; now rewrite Nat.eqb_refl) E) as (ops' & S' & X & Y & Z & W). exists ops'. split; auto. split; auto. split; [|split].
    + intros u Nu. rewrite Y by auto. destruct (Nat.eqb_spec u t); [contradiction|auto].
    + intros x. rewrite Z. apply P2.
    + congruence.
Qed.

Lemma copies_all : forall l g ops bl g' bl', settled g ops -> (forall t, bops bl t = ops t) -> (forall t, In t l -> t < length bl) ->
  mfold useless_step l (g, bl) = Ok (g', bl') ->
  exists ops', settled g' ops' /\ (forall t, bops bl' t = ops' t) /\ (forall t, bdesc bl' t = bdesc bl t) /\ (forall t, banc bl' t = banc bl t) /\
    length bl' = length bl /\ (forall x, parent g' x = parent g x) /\ g_next g' = g_next g.
Proof.
  induction l as [|t l IH]; intros g ops bl g' bl' S Eb Hl E.
  - cbn in E. injection E as <- <-. exists ops. repeat (split; auto).
  - cbn [mfold] in E. unfold useless_step at 1 in E. unfold eliminate_needless_copies in E. cbn [fst snd] in E.
    destruct (mfold copy_step (bops bl t) (g, [])) as [[g1 k1]| | | |] eqn:E1; cbn [bind fst snd] in E; try discriminate.
    destruct (copies_block t (bops bl t) g ops [] g1 k1 S) as (ops1 & S1 & X1 & X2 & X3 & X4); [now rewrite Eb|auto|].
    assert (Lt : t < length bl) by (apply Hl; now left).
    assert (BN : forall u, nth_block (update bl t (with_ops (fun _ => k1))) u = if u =? t then with_ops (fun _ => k1) (nth_block bl u) else nth_block bl u) by (intros u; now apply update_nth).
    destruct (IH g1 ops1 (update bl t (with_ops (fun _ => k1))) g' bl' S1) as (ops' & S' & Y1 & Y2 & Y3 & Y4 & Y5 & Y6).
    { intros u. rewrite BN. destruct (Nat.eqb_spec u t) as [->|Nu]; [cbn; auto|]. rewrite X2 by auto. apply Eb. }
    { intros u Hu. rewrite update_length. apply Hl. now right. }
    { exact E. }
    exists ops'. split; auto. split; auto. split; [|split; [|split; [|split]]].
    + intros u. rewrite Y2, BN. destruct (u =? t); reflexivity.
    + intros u. rewrite Y3, BN. destruct (u =? t); reflexivity.
    + rewrite Y4. apply update_length.
    + intros x. rewrite Y5. apply X3.
    + congruence.
Qed.
End Copies.
