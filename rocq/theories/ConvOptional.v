(** Optional outputs, and the whole conversion up to the removal of copies. *)
From Coq Require Import String List Arith ZArith Bool Lia Permutation.
From Verif Require Import Outcome NumProofs IrModel IrSpec IrProofs CfgModel CfgSpec CountProofs ConvModel ConvSpec ConvShape ConvBlocks ConvGroup ConvInv ConvBranch ConvProcess.
Import ListNotations.
Open Scope outcome_scope.
Open Scope nat_scope.

(** The branch in front of the entry, field by field. *)
Section Front.
Variables (st : cstate) (e : nat) (key : string) (st' : cstate).
Notation nb := (length (s_blocks st)).
Notation N := (g_next (s_g st)).
Definition put_front : outcome cstate :=
  let (st1, left) := create_block st in
  let* bl := add_descendant (s_blocks st1) left e in
  let (st2, jump) := create_block (mks (s_g st1) bl (s_visited st1)) in
  let* c := create_operation st2 jump (OOutReq key) TVoid [] in
  let* j := create_operation (fst c) jump OJump TVoid [snd c] in
  let* bl := add_descendant (s_blocks (fst j)) jump left in
  let* bl := add_descendant bl jump e in
  Ok (mks (s_g (fst j)) bl (s_visited (fst j))).
Hypothesis He : e < nb.
Hypothesis Ue : banc (s_blocks st) e = [].
Hypothesis CG : closed_graph (s_g st).
Hypothesis E : put_front = Ok st'.

Lemma put_front_spec :
  length (s_blocks st') = S (S nb) /\ s_visited st' = s_visited st /\
  (bdesc (s_blocks st') (S nb) = [nb; e] /\ bdesc (s_blocks st') nb = [e] /\ (forall t, t <> S nb -> t <> nb -> bdesc (s_blocks st') t = bdesc (s_blocks st) t)) /\
  (banc (s_blocks st') e = [nb; S nb] /\ banc (s_blocks st') nb = [S nb] /\ banc (s_blocks st') (S nb) = [] /\ (forall t, t <> e -> t <> nb -> t <> S nb -> banc (s_blocks st') t = banc (s_blocks st) t)) /\
  (bops (s_blocks st') (S nb) = [N; S N] /\ (forall t, t <> S nb -> bops (s_blocks st') t = bops (s_blocks st) t)) /\
  g_next (s_g st') = S (S N) /\ closed_graph (s_g st') /\
  (forall x, op_of (s_g st') x = if x =? S N then OJump else if x =? N then OOutReq key else op_of (s_g st) x) /\
  (forall x, args (s_g st') x = if x =? S N then [N] else if x =? N then [] else args (s_g st) x) /\
  (forall x, parent (s_g st') x = if x =? S N then S (S nb) else if x =? N then S (S nb) else parent (s_g st) x).
Proof.
  unfold put_front in E. cbn [create_block s_g s_blocks s_visited] in E.
  assert (B1 : forall t, nth_block (s_blocks st ++ [mkb [] [] []]) t = nth_block (s_blocks st) t).
  { intros t. rewrite nth_block_app. destruct (Nat.eqb_spec t nb); [now rewrite nth_block_out by lia|auto]. }
  assert (L1 : length (s_blocks st ++ [mkb [] [] []]) = S nb) by (rewrite app_length; cbn; lia).
  assert (Out : forall t, nb <= t -> bdesc (s_blocks st) t = [] /\ banc (s_blocks st) t = [] /\ bops (s_blocks st) t = []) by (intros t L; rewrite nth_block_out by lia; auto).
  destruct (add_descendant (s_blocks st ++ [mkb [] [] []]) nb e) as [bl2| | | |] eqn:E2; cbn [bind] in E; try discriminate.
  destruct (add_descendant_spec (s_blocks st ++ [mkb [] [] []]) nb e bl2 ltac:(lia) ltac:(lia) E2) as (L2 & O2 & D2 & A2).
  cbn [create_block s_g s_blocks s_visited] in E. rewrite L2, L1 in E.
  set (st3 := mks (s_g st) (bl2 ++ [mkb [] [] []]) (s_visited st)) in *.
  assert (B3 : forall t, nth_block (s_blocks st3) t = nth_block bl2 t).
  { intros t. unfold st3. cbn [s_blocks]. rewrite nth_block_app. destruct (Nat.eqb_spec t (length bl2)); [now rewrite nth_block_out by lia|auto]. }
  assert (L3 : length (s_blocks st3) = S (S nb)) by (unfold st3; cbn [s_blocks]; rewrite app_length, L2, L1; cbn; lia).
  destruct (create_operation st3 (S nb) (OOutReq key) TVoid []) as [[st4 cq]| | | |] eqn:E4; cbn [bind fst snd] in E; try discriminate.
  assert (CG3 : closed_graph (s_g st3)) by exact CG.
  pose proof (create_closed st3 (S nb) (OOutReq key) TVoid [] st4 cq CG3 ltac:(lia) ltac:(intros a []) E4) as CG4.
  destruct (create_operation_spec st3 (S nb) (OOutReq key) TVoid [] st4 cq ltac:(lia) ltac:(intros []) E4) as (Ec & G4 & V4 & L4 & O4 & A4 & P4 & _ & B4 & An4 & D4).
  change (s_g st3) with (s_g st) in *.
  destruct (create_operation st4 (S nb) OJump TVoid [cq]) as [[st5 jv]| | | |] eqn:E5; cbn [bind fst snd] in E; try discriminate.
  pose proof (create_closed st4 (S nb) OJump TVoid [cq] st5 jv CG4 ltac:(lia) ltac:(intros a [<-|[]]; lia) E5) as CG5.
  destruct (create_operation_spec st4 (S nb) OJump TVoid [cq] st5 jv ltac:(lia) ltac:(intros [K|[]]; lia) E5) as (Ej & G5 & V5 & L5 & O5 & A5 & P5 & _ & B5 & An5 & D5).
  destruct (add_descendant (s_blocks st5) (S nb) nb) as [bl6| | | |] eqn:E6; cbn [bind] in E; try discriminate.
  destruct (add_descendant_spec (s_blocks st5) (S nb) nb bl6 ltac:(lia) ltac:(lia) E6) as (L6 & O6 & D6 & A6).
  destruct (add_descendant bl6 (S nb) e) as [bl7| | | |] eqn:E7; cbn [bind] in E; try discriminate.
  destruct (add_descendant_spec bl6 (S nb) e bl7 ltac:(lia) ltac:(lia) E7) as (L7 & O7 & D7 & A7).
  injection E as <-. cbn [s_g s_blocks s_visited].
  assert (Ec' : cq = N) by congruence. assert (Ej' : jv = S N) by congruence. clear Ec Ej. subst cq jv.
  assert (DD : forall t, bdesc bl7 t = if t =? S nb then [nb; e] else if t =? nb then [e] else bdesc (s_blocks st) t).
  { intros t. rewrite D7, D6, D5, D4, B3, D2, B1. destruct (Nat.eqb_spec t (S nb)) as [->|].
    - destruct (Nat.eqb_spec (S nb) nb); [lia|]. rewrite (proj1 (Out (S nb) ltac:(lia))). reflexivity.
    - destruct (Nat.eqb_spec t nb) as [->|]; [|auto]. rewrite (proj1 (Out nb ltac:(lia))). reflexivity. }
  assert (AA : forall t, banc bl7 t = if t =? e then [nb; S nb] else if t =? nb then [S nb] else banc (s_blocks st) t).
  { intros t. rewrite A7, A6, An5, An4, B3, A2, B1. destruct (Nat.eqb_spec t e) as [->|].
    - destruct (Nat.eqb_spec e nb); [lia|]. rewrite Ue. reflexivity.
    - destruct (Nat.eqb_spec t nb) as [->|]; [|auto]. destruct (Out nb) as (_ & -> & _); [lia|]. reflexivity. }
  split; [lia|]. split; [now rewrite V5, V4|]. split; [|split; [|split; [|split; [|split; [|split; [|split]]]]]].
  - rewrite !DD. rewrite !Nat.eqb_refl. destruct (Nat.eqb_spec nb (S nb)); [lia|]. split; [auto|]. split; [auto|].
    intros t X Y. rewrite DD. destruct (Nat.eqb_spec t (S nb)); [lia|]. destruct (Nat.eqb_spec t nb); [lia|auto].
  - rewrite !AA. rewrite !Nat.eqb_refl. destruct (Nat.eqb_spec nb e); [lia|]. destruct (Nat.eqb_spec (S nb) e); [lia|]. destruct (Nat.eqb_spec (S nb) nb); [lia|].
    split; [auto|]. split; [auto|]. split; [apply Out; lia|].
    intros t X Y Z. rewrite AA. destruct (Nat.eqb_spec t e); [lia|]. destruct (Nat.eqb_spec t nb); [lia|auto].
  - split.
    + rewrite O7, O6, B5, Nat.eqb_refl, B4, Nat.eqb_refl, B3, O2, B1. destruct (Out (S nb)) as (_ & _ & ->); [lia|]. reflexivity.
    + intros t X. rewrite O7, O6, B5, B4, B3, O2, B1. destruct (Nat.eqb_spec t (S nb)); [contradiction|auto].
  - lia.
  - exact CG5.
  - intros x. now rewrite O5, O4.
  - intros x. now rewrite A5, A4.
  - intros x. now rewrite P5, P4.
Qed.
End Front.

Section Optional.
Variables (A : algebra) (Q : selecting A) (T : typing) (g0 : graph) (ops0 : list name) (r0 : name -> D A).
Hypothesis P0 : program T g0 0 ops0.
Hypothesis C0 : consistent r0 g0 ops0.
Notation N0 := (g_next g0).
Notation frame := (frame A).

Lemma inv_mono (ok ok' : name -> Prop) r e opts st : (forall v, ok v -> ok' v) -> inv A Q g0 r0 ok r e opts st -> inv A Q g0 r0 ok' r e opts st.
Proof. intros K []. constructor; auto. Qed.

Lemma front_inv ok r e opts st key st' : inv A Q g0 r0 ok r e opts st -> put_front st e key = Ok st' ->
  exists r', inv A Q g0 r0 ok r' (S (length (s_blocks st))) ((length (s_blocks st), key) :: opts) st' /\ frame (length (s_blocks st)) r st r' st' /\
   length (s_blocks st') = S (S (length (s_blocks st))) /\ (forall x, x < g_next (s_g st) -> cons_of (s_g st) x = [] -> parent (s_g st') x = parent (s_g st) x /\ cons_of (s_g st') x = []) /\
   (forall v t, op_of (s_g st') v = OPhi -> parent (s_g st') v = S t -> t < length (s_blocks st)).
Proof.
  intros I E. pose proof (i_core _ _ _ _ _ _ _ _ _ I) as [Sh U Ow ND Avl Ju Tw Ph Va]. pose proof (i_closed _ _ _ _ _ _ _ _ _ I) as CG.
  pose proof (sh_entry _ _ _ _ Sh) as Le. pose proof (sh_root _ _ _ _ Sh) as Re. cbn beta in Re.
  destruct (put_front_spec st e key st' Le Re CG E) as (L' & V' & (Dj & Db & Dt) & (Ue & Ub & Uj & Ut) & (Bj & Bt) & G' & CG' & O' & A' & P'). clear E.
  set (n := length (s_blocks st)) in *. set (g := s_g st) in *. set (N := g_next g) in *.
  assert (LN : N0 <= N) by apply (i_next _ _ _ _ _ _ _ _ _ I).
  set (r' := fun x => if x <? N then r x else if x =? N then sem A (OOutReq key) [] else sem A OJump [sem A (OOutReq key) []]).
  assert (Rold : forall x, x < N -> r' x = r x) by (intros x L; unfold r'; destruct (Nat.ltb_spec x N); [auto|lia]).
  assert (Rq : r' N = sem A (OOutReq key) []) by (unfold r'; rewrite Nat.ltb_irrefl, Nat.eqb_refl; auto).
  assert (Rj : r' (S N) = sem A OJump [sem A (OOutReq key) []]) by (unfold r'; destruct (Nat.ltb_spec (S N) N); [lia|]; destruct (Nat.eqb_spec (S N) N); [lia|auto]).
  assert (SAME : forall x, x < N -> op_of (s_g st') x = op_of g x /\ args (s_g st') x = args g x /\ parent (s_g st') x = parent g x).
  { intros x L. rewrite O', A', P'. destruct (Nat.eqb_spec x (S N)); [lia|]. destruct (Nat.eqb_spec x N); [lia|auto]. }
  assert (OQ : op_of (s_g st') N = OOutReq key /\ args (s_g st') N = [] /\ parent (s_g st') N = S (S n)).
  { rewrite O', A', P'. destruct (Nat.eqb_spec N (S N)); [lia|]. rewrite Nat.eqb_refl. auto. }
  assert (OJ : op_of (s_g st') (S N) = OJump /\ args (s_g st') (S N) = [N] /\ parent (s_g st') (S N) = S (S n)) by (rewrite O', A', P', Nat.eqb_refl; auto).
  assert (Outn : bops (s_blocks st) n = []) by (unfold n; rewrite nth_block_out by lia; auto).
  assert (Blt : forall x t, In x (bops (s_blocks st) t) -> t < n /\ x < N).
  { intros x t K. split; [now apply in_block_lt in K|]. destruct (Nat.lt_ge_cases x N) as [|G]; auto. destruct (cg_fresh _ CG x G) as [_ Z]. rewrite (Ow x t K) in Z. discriminate. }
  assert (CASES : forall x t, In x (bops (s_blocks st') t) -> (t = S n /\ (x = N \/ x = S N)) \/ (t < n /\ x < N /\ In x (bops (s_blocks st) t))).
  { intros x t K. destruct (Nat.eq_dec t (S n)) as [Et|Nt]; [left; rewrite Et, Bj in K; destruct K as [<-|[<-|[]]]; auto|]. right. rewrite Bt in K by auto. destruct (Blt x t K). auto. }
  assert (Mono : forall x t, In x (bops (s_blocks st) t) -> In x (bops (s_blocks st') t)) by (intros x t K; destruct (Blt x t K); rewrite Bt by lia; auto).
  assert (KINDS : forall x, x < N \/ x = N \/ x = S N \/ S (S N) <= x) by (intros x; lia).
  assert (DOM : forall u t, t < n -> dom (fun t => banc (s_blocks st) t) u t -> dom (fun t => banc (s_blocks st') t) u t).
  { intros u t. apply (dom_entry n (fun t => bdesc (s_blocks st) t) (fun t => banc (s_blocks st) t) (fun t => banc (s_blocks st') t) e); auto. }
  assert (ENT : forall i k t, t < n -> i < n -> enters (fun t => bdesc (s_blocks st) t) (fun t => banc (s_blocks st) t) i k t -> enters (fun t => bdesc (s_blocks st') t) (fun t => banc (s_blocks st') t) i k t).
  { intros i k t. apply (enters_entry n _ _ (fun t => bdesc (s_blocks st') t) (fun t => banc (s_blocks st') t) e); auto. }
  assert (OutD : forall t, n <= t -> bdesc (s_blocks st) t = []) by (intros t L; rewrite nth_block_out by (fold n; lia); auto).
  assert (LJ : forall J, length (bdesc (s_blocks st) J) = 2 -> J < n) by (intros J K; destruct (Nat.lt_ge_cases J n) as [|G]; auto; rewrite (OutD J G) in K; discriminate).
  assert (LTn : forall t, parent g t <> 0 -> t < N) by (intros t K; destruct (Nat.lt_ge_cases t N) as [|G]; auto; destruct (cg_fresh _ CG t G); contradiction).
  exists r'. split; [|split; [|split; [|split]]]; auto.
  - constructor; auto.
    + constructor.
      * rewrite L'. apply (shape_entry n (fun t => bdesc (s_blocks st) t) (fun t => banc (s_blocks st) t) _ _ e); auto.
      * apply (cg_use _ CG').
      * intros x t K. destruct (CASES x t K) as [[-> [->| ->]]|(Lt & Lx & Kx)]; [apply OQ|apply OJ|]. destruct (SAME x Lx) as (_ & _ & ->). now apply Ow.
      * intros t. destruct (Nat.eq_dec t (S n)) as [->|Nt]; [|rewrite Bt by auto; apply ND]. rewrite Bj. constructor; [intros [K|[]]; lia|]. constructor; auto. constructor.
      * intros x t a u K Np Ha Pa. destruct (CASES x t K) as [[-> [->| ->]]|(Lt & Lx & Kx)].
        -- destruct OQ as (_ & Z & _). rewrite Z in Ha. contradiction.
        -- destruct OJ as (_ & Z & _). rewrite Z in Ha. destruct Ha as [<-|[]]. destruct OQ as (_ & _ & Z'). rewrite Z' in Pa. injection Pa as <-.
           split; [intros p Pp; destruct (upath_head _ _ _ Pp) as (q & ->); now left|]. rewrite Bj. split; [now left|]. intros _. exists [N], []. split; [auto|now left].
        -- destruct (SAME x Lx) as (Z1 & Z2 & Z3). rewrite Z1 in Np. rewrite Z2 in Ha. pose proof (cg_args _ CG x a Ha) as La. destruct (SAME a La) as (_ & _ & Z4). rewrite Z4 in Pa.
           destruct (Avl x t a u Kx Np Ha Pa) as (X & Y & Z). split; [auto|]. split; [auto|]. rewrite Bt by lia. auto.
      * intros x t K Ex. destruct (CASES x t K) as [[-> [->| ->]]|(Lt & Lx & Kx)].
        -- destruct OQ as (Z & _). congruence.
        -- rewrite Dj, Bj. split; auto. exists [N]. auto.
        -- destruct (SAME x Lx) as (Z1 & _). rewrite Z1 in Ex. rewrite Dt, Bt by lia. apply (Ju x t Kx Ex).
      * intros t K. destruct (Nat.eq_dec t (S n)) as [->|N1]; [exists [N], (S N), N; rewrite Bj; destruct OJ as (X & Y & _); auto|].
        destruct (Nat.eq_dec t n) as [->|N2]; [rewrite Db in K; discriminate|]. rewrite Dt in K by auto. rewrite Bt by auto. destruct (Tw t K) as (l & jv & cd & X & Y & Z).
        exists l, jv, cd. assert (In jv (bops (s_blocks st) t)) as Kj by (rewrite X, in_app_iff; right; now left). destruct (Blt _ _ Kj) as (_ & W). destruct (SAME jv W) as (-> & -> & _). auto.
      * intros x t K Ex. destruct (CASES x t K) as [[-> [->| ->]]|(Lt & Lx & Kx)].
        -- destruct OQ as (Z & _). congruence.
        -- destruct OJ as (Z & _). congruence.
        -- destruct (SAME x Lx) as (Z1 & Z2 & _). rewrite Z1 in Ex. destruct (Ph x t Kx Ex) as (L & R & cl & cr & J & l & jv & cd & X1 & X2 & X3 & X4 & X5 & X6 & X7 & X8 & X9 & X10 & X11).
           pose proof (LJ J X6) as LJ'. assert (In jv (bops (s_blocks st) J)) as Kj by (rewrite X7, in_app_iff; right; now left). destruct (Blt _ _ Kj) as (_ & W). destruct (SAME jv W) as (_ & W2 & _).
           destruct (Blt _ _ X2) as (LL & LL2). destruct (Blt _ _ X3) as (LR & LR2).
           exists L, R, cl, cr, J, l, jv, cd. rewrite Z2, W2. split; [auto|]. split; [auto|]. split; [auto|]. split; [auto|].
           split; [rewrite Ut; auto; [intros ->; congruence|lia|lia]|]. split; [rewrite Dt by lia; auto|]. split; [rewrite Bt by lia; auto|]. split; [auto|]. split; [auto|]. split; [auto|].
           assert (cd < N) by (apply (cg_args _ CG jv); fold g; rewrite X8; now left). rewrite !Rold by auto. exact X11.
      * intros x t K Np. destruct (CASES x t K) as [[-> [->| ->]]|(Lt & Lx & Kx)].
        -- destruct OQ as (-> & -> & _). exact Rq.
        -- destruct OJ as (-> & -> & _). rewrite Rj. cbn [map]. now rewrite Rq.
        -- destruct (SAME x Lx) as (Z1 & Z2 & _). rewrite Z1 in *. rewrite Z2, Rold by auto. rewrite (Va x t Kx Np). f_equal. apply map_ext_in. intros a Ha. symmetry. apply Rold. apply (cg_args _ CG x a Ha).
    + rewrite G'. lia.
    + intros x t Px. destruct (KINDS x) as [L|[->|[->|G]]].
      * destruct (SAME x L) as (_ & _ & Z). rewrite Z in Px. apply Mono. apply (i_par _ _ _ _ _ _ _ _ _ I). exact Px.
      * destruct OQ as (_ & _ & Z). rewrite Z in Px. injection Px as <-. rewrite Bj. now left.
      * destruct OJ as (_ & _ & Z). rewrite Z in Px. injection Px as <-. rewrite Bj. right. now left.
      * destruct (cg_fresh _ CG' x) as [_ Z]; [lia|]. congruence.
    + intros x K. rewrite V' in K. pose proof (i_vis _ _ _ _ _ _ _ _ _ I x K) as Z. destruct (SAME x (LTn x Z)) as (_ & _ & ->). exact Z.
    + intros x L K. rewrite V'. destruct (SAME x ltac:(lia)) as (_ & _ & Z). rewrite Z in K. apply (i_orig _ _ _ _ _ _ _ _ _ I); auto.
    + intros x L K. destruct (SAME x ltac:(lia)) as (_ & _ & Z). rewrite Z in K. apply (i_src _ _ _ _ _ _ _ _ _ I); auto.
    + intros x L. destruct (SAME x ltac:(lia)) as (-> & -> & ->). apply (i_op _ _ _ _ _ _ _ _ _ I x L).
    + intros x L. rewrite G' in L. destruct (KINDS x) as [Lx|[->|[->|G]]].
      * destruct (SAME x Lx) as (-> & _ & ->). destruct (i_new _ _ _ _ _ _ _ _ _ I x) as [X Y]; [fold g; fold N; lia|]. split; auto. fold g in Y. destruct (op_of g x); cbn in *; auto. destruct Y as (B & Y). exists B. now right.
      * destruct OQ as (-> & _ & ->). split; [discriminate|]. exists n. now left.
      * destruct OJ as (-> & _ & ->). split; [discriminate|exact Logic.I].
      * lia.
    + intros a c Ha Ka. destruct (KINDS c) as [Lx|[->|[->|G]]].
      * destruct (SAME c Lx) as (_ & Z2 & ->). rewrite Z2 in Ha. apply (i_up _ _ _ _ _ _ _ _ _ I a c Ha). pose proof (cg_args _ CG c a Ha) as La. destruct (SAME a La) as (_ & _ & Z). rewrite Z in Ka. exact Ka.
      * destruct OQ as (_ & _ & ->). discriminate.
      * destruct OJ as (_ & _ & ->). discriminate.
      * destruct (cg_fresh _ CG' c) as [Z _]; [lia|]. rewrite Z in Ha. contradiction.
    + intros x a Ex Ha. destruct (KINDS x) as [Lx|[->|[->|G]]].
      * destruct (SAME x Lx) as (Z1 & Z2 & _). rewrite Z1 in Ex. rewrite Z2 in Ha. pose proof (i_phi _ _ _ _ _ _ _ _ _ I x a Ex Ha) as Z. destruct (SAME a (LTn a Z)) as (_ & _ & ->). exact Z.
      * destruct OQ as (Z & _). congruence.
      * destruct OJ as (Z & _). congruence.
      * destruct (cg_fresh _ CG' x) as [Z _]; [lia|]. rewrite Z in Ha. contradiction.
    + intros x L. rewrite Rold by lia. apply (i_r _ _ _ _ _ _ _ _ _ I x L).
    + intros B k [K|K].
      * injection K as <- <-. split; [lia|]. exists (S n), [N], (S N), N. rewrite Dj, Bj. destruct OQ as (-> & -> & ->). destruct OJ as (_ & -> & _).
        split; [auto|]. split; [auto|]. split; [auto|]. split; [auto|]. split; [auto|]. split; [auto|].
        apply (splits_new n (fun t => bdesc (s_blocks st) t) (fun t => banc (s_blocks st) t) (fun t => bdesc (s_blocks st') t) (fun t => banc (s_blocks st') t) e); auto. lia.
      * destruct (i_opt _ _ _ _ _ _ _ _ _ I B k K) as (LB & J & l & jv & cq & X3 & X4 & X5 & X6 & X7 & X8 & X9). fold g in X5, X6, X7, X8. fold n in LB. split; [lia|].
        pose proof (LJ J X3) as LJ'. exists J, l, jv, cq.
        assert (In jv (bops (s_blocks st) J)) as Kj by (rewrite X4, in_app_iff; right; now left). destruct (Blt _ _ Kj) as (_ & W). destruct (SAME jv W) as (_ & W2 & _).
        assert (Pq : parent g cq <> 0) by congruence. destruct (SAME cq (LTn cq Pq)) as (Y1 & Y2 & Y3).
        rewrite W2, Y1, Y2, Y3, Dt, Bt by lia. split; [auto|]. split; [auto|]. split; [auto|]. split; [auto|]. split; [auto|]. split; [auto|].
        apply (splits_entry n (fun t => bdesc (s_blocks st) t) (fun t => banc (s_blocks st) t) (fun t => bdesc (s_blocks st') t) (fun t => banc (s_blocks st') t) e); auto. lia.
    + intros t K. destruct (Nat.eq_dec t n) as [->|N2]; [right; exists key; now left|]. destruct (Nat.eq_dec t (S n)) as [->|N1]; [rewrite Dj in K; discriminate|].
      rewrite Dt in K by auto. rewrite Bt by auto. destruct (i_one _ _ _ _ _ _ _ _ _ I t K) as [|(k & X)]; auto. right. exists k. now right.
    + intros a c Ha La. destruct (KINDS c) as [Lx|[->|[->|G]]].
      * destruct (SAME c Lx) as (_ & Z & _). rewrite Z in Ha. apply (i_rd _ _ _ _ _ _ _ _ _ I a c Ha La).
      * destruct OQ as (_ & Z & _). rewrite Z in Ha. contradiction.
      * destruct OJ as (_ & Z & _). rewrite Z in Ha. destruct Ha as [<-|[]]. lia.
      * destruct (cg_fresh _ CG' c) as [Z _]; [lia|]. rewrite Z in Ha. contradiction.
    + intros x Px. destruct (KINDS x) as [Lx|[->|[->|G]]].
      * destruct (SAME x Lx) as (Z1 & Z2 & Z3). rewrite Z1, Z2. rewrite Z3 in Px. apply (i_ar _ _ _ _ _ _ _ _ _ I x Px).
      * destruct OQ as (Z1 & Z2 & _). rewrite Z1, Z2. reflexivity.
      * destruct OJ as (Z1 & Z2 & _). rewrite Z1, Z2. reflexivity.
      * destruct (cg_fresh _ CG' x) as [_ Z]; [lia|]. congruence.
    + intros a c Ha. destruct (KINDS c) as [Lx|[->|[->|G]]].
      * destruct (SAME c Lx) as (Z1 & Z2 & Z3). rewrite Z2 in Ha. rewrite Z1, Z3. pose proof (cg_args _ CG c a Ha) as La. destruct (SAME a La) as (-> & _ & ->). apply (i_ctl _ _ _ _ _ _ _ _ _ I a c Ha).
      * destruct OQ as (_ & Z & _). rewrite Z in Ha. contradiction.
      * destruct OJ as (Y & Z & W). rewrite Z in Ha. destruct Ha as [<-|[]]. destruct OQ as (X & _ & W'). rewrite X, Y, W, W'. split; [discriminate|auto].
      * destruct (cg_fresh _ CG' c) as [Z _]; [lia|]. rewrite Z in Ha. contradiction.
    + intros x J k Lx Ex Px. destruct (KINDS x) as [Lx'|[->|[->|G]]].
      * destruct (SAME x Lx') as (Z1 & _ & Z3). rewrite Z1 in Ex. rewrite Z3 in Px. destruct (i_req _ _ _ _ _ _ _ _ _ I x J k Lx Ex Px) as (l & q & B & X1 & X2 & X3).
        assert (LJ' : J < n) by (apply LJ; now rewrite X1).
        assert (Lq : q < n) by (apply (sh_range _ _ _ _ Sh J q); rewrite X1; cbn; auto).
        exists l, q, B. rewrite Dt by lia. rewrite Ut; auto; try lia. intros ->. rewrite Re in X2. contradiction.
      * destruct OQ as (_ & _ & Z). rewrite Z in Px. injection Px as <-. exists n, e, n. rewrite Dj, Ue. split; auto. split; [now left|lia].
      * destruct OJ as (Z & _). congruence.
      * destruct (cg_fresh _ CG' x) as [_ Z]; [lia|]. congruence.
  - split; [rewrite G'; fold g; fold N; lia|]. split; [fold n; lia|]. split; [exact Rold|]. split; [|split; [|intros t Lt; fold n in Lt; exists []; rewrite Bt by lia; auto]].
    + intros x K. fold g in K. destruct (SAME x (LTn x K)) as (_ & _ & Z). exact Z.
    + intros x t Ex Px Lt Nt. fold g. destruct (KINDS x) as [L|[->|[->|G]]].
      * destruct (SAME x L) as (Z1 & _ & Z3). split; congruence.
      * destruct OQ as (Z & _). congruence.
      * destruct OJ as (Z & _). congruence.
      * destruct (cg_fresh _ CG' x) as [_ Z]; [lia|]. congruence.
  - intros x L K. destruct (SAME x L) as (_ & _ & Z). split; auto. destruct (cons_of (s_g st') x) as [|c q] eqn:Ec; auto. exfalso.
    assert (In c (cons_of (s_g st') x)) as Kc by (rewrite Ec; now left). apply (def_use_in _ (cg_use _ CG')) in Kc. rewrite A' in Kc.
    destruct (Nat.eqb_spec c (S N)); [destruct Kc as [<-|[]]; lia|]. destruct (Nat.eqb_spec c N); [destruct Kc|]. apply (def_use_in _ U) in Kc. fold g in K. rewrite K in Kc. contradiction.
  - intros x t Ex Px. destruct (KINDS x) as [L|[->|[->|G]]].
    + destruct (SAME x L) as (_ & _ & Z). rewrite Z in Px. apply (i_par _ _ _ _ _ _ _ _ _ I) in Px. now apply in_block_lt in Px.
    + destruct OQ as (Z & _). congruence.
    + destruct OJ as (Z & _). congruence.
    + destruct (cg_fresh _ CG' x) as [_ Z]; [lia|]. congruence.
Qed.

(** One optional output. *)
Lemma optional_inv (ok ok' : name -> Prop) fuel ct r e opts st v st' e' :
  (forall x, ok' x -> In x ops0) -> (forall x a, ok' x -> In a (args g0 x) -> ok' a) -> (forall x, ok x -> ok' x) -> ok' v -> ~ ok v ->
  (forall c, ~ In v (args g0 c)) ->
  inv A Q g0 r0 ok r e opts st -> optional_step fuel ct (st, e) v = Ok (st', e') ->
  exists r' B key, op_of g0 v = OSave 0 key /\ inv A Q g0 r0 ok' r' e' ((B, key) :: opts) st' /\ parent (s_g st') v = S B /\
   (forall t, t < length (s_blocks st) -> exists l, bops (s_blocks st') t = l ++ bops (s_blocks st) t) /\ length (s_blocks st) <= length (s_blocks st') /\
   (forall x, parent (s_g st) x <> 0 -> parent (s_g st') x = parent (s_g st) x).
Proof.
  intros K1 K2 Km Kv Nv Rv I E. unfold optional_step in E.
  assert (Lv : v < N0) by (apply (bo_fresh g0 0 ops0 (proj1 P0)); auto).
  assert (Pv : parent (s_g st) v = 0).
  { destruct (parent (s_g st) v) eqn:Ep; auto. exfalso. apply Nv. apply (i_src _ _ _ _ _ _ _ _ _ I v Lv). congruence. }
  destruct (unplaced_same _ _ _ _ _ _ _ _ _ v I Lv Pv) as [Ov _].
  assert (Cv : cons_of (s_g st) v = []).
  { destruct (cons_of (s_g st) v) as [|c q] eqn:Ec; auto. exfalso. assert (In c (cons_of (s_g st) v)) as Z by (rewrite Ec; now left).
    apply (def_use_in _ (c_use _ _ _ _ _ _ _ _ _ (i_core _ _ _ _ _ _ _ _ _ I))) in Z. destruct (i_rd _ _ _ _ _ _ _ _ _ I v c Z Lv) as (c0 & Z'). exact (Rv c0 Z'). }
  rewrite Ov in E. destruct (op_of g0 v) as [| | | | | | | | | | | | | | | |u key] eqn:Og; try discriminate. destruct u; [|discriminate].
  pose proof (i_core _ _ _ _ _ _ _ _ _ I) as CO. pose proof (sh_entry _ _ _ _ (c_shape _ _ _ _ _ _ _ _ _ CO)) as Le.
  set (n := length (s_blocks st)) in *.
  assert (EE : exists s1, put_front st e key = Ok s1 /\
    (let* r := process fuel ct s1 [v] n [] in let '(st3, _, later) := r in
     let* r := process fuel ct st3 later (S n) [] in let '(st4, next', later) := r in
     let* _ := nothing_deferred later in Ok (st4, next')) = Ok (st', e')).
  { unfold put_front. cbn [create_block s_g s_blocks s_visited] in *. fold n in E |- *.
    destruct (add_descendant (s_blocks st ++ [mkb [] [] []]) n e) as [bl2| | | |] eqn:E2; cbn [bind] in E |- *; try discriminate.
    destruct (add_descendant_spec (s_blocks st ++ [mkb [] [] []]) n e bl2) as (L2 & _); auto; [rewrite app_length; cbn; fold n; lia|rewrite app_length; cbn; fold n; lia|].
    assert (L3 : length bl2 = S n) by (rewrite L2, app_length; cbn; fold n; lia). cbn [create_block s_g s_blocks s_visited] in E |- *. rewrite L3 in E |- *.
    destruct (create_operation _ (S n) (OOutReq key) TVoid []) as [[st4 cq]| | | |] eqn:E4; cbn [bind fst snd] in E |- *; try discriminate.
    destruct (create_operation st4 (S n) OJump TVoid [cq]) as [[st5 jv]| | | |] eqn:E5; cbn [bind fst snd] in E |- *; try discriminate.
    destruct (add_descendant (s_blocks st5) (S n) n) as [bl6| | | |] eqn:E6; cbn [bind] in E |- *; try discriminate.
    destruct (add_descendant bl6 (S n) e) as [bl7| | | |] eqn:E7; cbn [bind] in E |- *; try discriminate.
    eexists. split; [reflexivity|exact E]. }
  clear E. destruct EE as (s1 & Ef & E).
  destruct (front_inv ok r e opts st key s1 I Ef) as (r1 & I1 & F1 & L1 & S1 & Hp1). fold n in I1, F1, L1, Hp1.
  apply (inv_mono ok ok') in I1; auto.
  destruct (process fuel ct s1 [v] n []) as [[[st3 bk3] later]| | | |] eqn:E3; cbn [bind] in E; try discriminate.
  destruct (process_inv A Q T g0 ops0 r0 P0 C0 ok' K1 K2 ct _ fuel s1 [v] n [] st3 bk3 later r1 (S n) E3 I1) as (r3 & e3 & I3 & F3 & D3 & _ & Ke3 & _ & S3).
  { lia. } { intros x [<-|[]]; auto. } { intros x []. } { intros x t X Y. specialize (Hp1 x t X Y). lia. }
  rewrite Ke3 in * by lia. clear Ke3 e3.
  destruct (process fuel ct st3 later (S n) []) as [[[st4 e4] later4]| | | |] eqn:E4; cbn [bind] in E; try discriminate.
  destruct later4; cbn [nothing_deferred bind] in E; [|discriminate]. injection E as <- <-.
  pose proof F3 as (_ & L3 & _ & P3 & Ph3 & Sf3).
  destruct (process_inv A Q T g0 ops0 r0 P0 C0 ok' K1 K2 ct _ fuel st3 later (S n) [] st4 e4 [] r3 (S n) E4 I3) as (r4 & e4' & I4 & F4 & _ & Ke4 & _ & _ & _).
  { lia. } { auto. } { intros x []. }
  { intros x t X Y Et. subst t. destruct (Ph3 x (S n) X Y) as [X' Y']; [lia|lia|]. specialize (Hp1 x (S n) X' Y'). lia. }
  rewrite <- Ke4 in I4 by auto. clear Ke4 e4'.
  pose proof F1 as (_ & Ln1 & _ & P1 & _ & Sf1). pose proof F4 as (_ & Ln4 & _ & P4 & _ & Sf4).
  assert (Lv1 : v < g_next (s_g st)) by (pose proof (i_next _ _ _ _ _ _ _ _ _ I); lia).
  destruct (S1 v Lv1 Cv) as [Pv1 Cv1].
  assert (Pv3 : parent (s_g st3) v = S n) by (apply S3; [now left|now rewrite Og|auto|congruence]).
  exists r4, n, key. split; [auto|]. split; [auto|]. split; [rewrite P4; congruence|].
  split; [intros t Lt; destruct (Sf1 t Lt) as (l1 & Z1); destruct (Sf3 t ltac:(lia)) as (l3 & Z3); destruct (Sf4 t ltac:(lia)) as (l4 & Z4); exists (l4 ++ l3 ++ l1); rewrite Z4, Z3, Z1; now rewrite <- !app_assoc|].
  split; [fold n in Ln1 |- *; lia|].
  intros x Nx. assert (X1 : parent (s_g s1) x <> 0) by (rewrite P1; auto). assert (X3 : parent (s_g st3) x <> 0) by (rewrite P3; auto).
  rewrite P4, P3, P1; auto.
Qed.
End Optional.
