(** Turning selects into phi functions of copies. *)
From Coq Require Import String List Arith ZArith Bool Lia Permutation.
From Verif Require Import Outcome NumProofs IrModel IrSpec IrProofs CfgModel CfgSpec CountProofs ConvModel ConvShape ConvBlocks.
Import ListNotations.
Open Scope outcome_scope.
Open Scope nat_scope.

(** Operands are values of the graph; what is not a value of the graph has no operands and no block. *)
Record closed_graph (g : graph) : Prop := {
  cg_use : def_use g;
  cg_args : forall v a, In a (args g v) -> a < g_next g;
  cg_fresh : forall v, g_next g <= v -> args g v = [] /\ parent g v = 0
}.

Lemma def_use_in g : def_use g -> forall a c, In c (cons_of g a) <-> In a (args g c).
Proof. intros U a c. rewrite !(count_occ_In Nat.eq_dec). rewrite U. tauto. Qed.

Lemma create_closed st b o t l st' v : closed_graph (s_g st) -> b < length (s_blocks st) -> (forall a, In a l -> a < g_next (s_g st)) ->
  create_operation st b o t l = Ok (st', v) -> closed_graph (s_g st').
Proof.
  intros [U Ar F] Lb Hl E. assert (Hn : ~ In (g_next (s_g st)) l) by (intros K; specialize (Hl _ K); lia).
  destruct (create_operation_spec _ _ _ _ _ _ _ Lb Hn E) as (-> & G & V & L & Op & Ag & Pa & Co & _).
  set (g := s_g st) in *. constructor.
  - intros a c. rewrite Co, Ag. destruct (Nat.eqb_spec c (g_next g)) as [->|Nc].
    + rewrite (proj1 (Permutation_count_occ Nat.eq_dec _ _) (maybe_sort_perm o l)).
      destruct (Nat.eqb_spec a (g_next g)); [lia|]. rewrite U. rewrite (proj1 (F (g_next g) (Nat.le_refl _))). cbn. lia.
    + destruct (Nat.eqb_spec a (g_next g)) as [->|Na]; [|rewrite U; lia].
      assert (~ In (g_next g) (args g c)) as K by (intros K; apply Ar in K; lia). apply (count_occ_not_In Nat.eq_dec) in K. lia.
  - intros x a. rewrite Ag, G. destruct (Nat.eqb_spec x (g_next g)).
    + intros K. apply (Permutation_in _ (maybe_sort_perm o l)) in K. specialize (Hl _ K). lia.
    + intros K. apply Ar in K. lia.
  - intros x L'. rewrite G in L'. rewrite Ag, Pa. destruct (Nat.eqb_spec x (g_next g)); [lia|]. apply F. lia.
Qed.

Lemma set_parent_spec g v b g' : set_parent g v b = Ok g' ->
  is_jump (op_of g v) = false /\ g_next g' = g_next g /\ (forall x, op_of g' x = op_of g x) /\ (forall x, args g' x = args g x) /\
  (forall x, cons_of g' x = cons_of g x) /\ (forall x, parent g' x = if x =? v then S b else parent g x).
Proof.
  unfold set_parent. destruct (is_jump (op_of g v)); [discriminate|]. intros E. injection E as <-.
  assert (U : forall x, g_val (set_val g v (mkv (op_of g v) (ty_of g v) (args g v) (cons_of g v) (S b))) x =
    if x =? v then mkv (op_of g v) (ty_of g v) (args g v) (cons_of g v) (S b) else g_val g x) by reflexivity.
  split; [auto|]. split; [auto|].
  split; [|split; [|split]]; intros x; unfold op_of, args, cons_of, parent, ty_of in *; rewrite U;
    destruct (Nat.eqb_spec x v) as [->|]; reflexivity.
Qed.

Definition triple := (name * name * name)%type.
Definition tv (t : triple) := fst (fst t).
Definition tl_ (t : triple) := snd (fst t).
Definition tr_ (t : triple) := snd t.

Section Group.
Variables (l r o : nat).
Hypothesis Nlr : l <> r.

Record regrouped (vs : list name) (st : cstate) (ts : list triple) (st' : cstate) : Prop := {
  rg_vs : map tv ts = vs;
  rg_len : length (s_blocks st') = length (s_blocks st);
  rg_next : g_next (s_g st) <= g_next (s_g st');
  rg_closed : closed_graph (s_g st');
  rg_phi : forall t, In t ts -> op_of (s_g st') (tv t) = OPhi /\ args (s_g st') (tv t) = [tl_ t; tr_ t] /\ parent (s_g st') (tv t) = S o;
  rg_left : forall t, In t ts -> g_next (s_g st) <= tl_ t < g_next (s_g st') /\ op_of (s_g st') (tl_ t) = OCopy /\
     parent (s_g st') (tl_ t) = S l /\ exists c a b, args (s_g st) (tv t) = [c; a; b] /\ args (s_g st') (tl_ t) = [a];
  rg_right : forall t, In t ts -> g_next (s_g st) <= tr_ t < g_next (s_g st') /\ op_of (s_g st') (tr_ t) = OCopy /\
     parent (s_g st') (tr_ t) = S r /\ exists c a b, args (s_g st) (tv t) = [c; a; b] /\ args (s_g st') (tr_ t) = [b];
  rg_same : forall x, x < g_next (s_g st) -> ~ In x vs -> op_of (s_g st') x = op_of (s_g st) x /\ args (s_g st') x = args (s_g st) x /\ parent (s_g st') x = parent (s_g st) x;
  rg_new : forall x, g_next (s_g st) <= x < g_next (s_g st') -> In x (map tl_ ts) \/ In x (map tr_ ts);
  rg_ndl : NoDup (map tl_ ts);
  rg_ndr : NoDup (map tr_ ts);
  rg_ops : forall t, bops (s_blocks st') t = if t =? l then bops (s_blocks st) t ++ map tl_ ts else if t =? r then bops (s_blocks st) t ++ map tr_ ts else bops (s_blocks st) t;
  rg_anc : forall t, banc (s_blocks st') t = banc (s_blocks st) t;
  rg_desc : forall t, bdesc (s_blocks st') t = bdesc (s_blocks st) t;
  rg_vis : forall x, In x (s_visited st') <-> (In x (s_visited st) \/ In x vs \/ (g_next (s_g st) <= x < g_next (s_g st')))
}.

Lemma group_one st ql qr v st' ql' qr' : group_step l r o (st, ql, qr) v = Ok (st', ql', qr') ->
  closed_graph (s_g st) -> l < length (s_blocks st) -> r < length (s_blocks st) -> v < g_next (s_g st) -> ~ In v (args (s_g st) v) ->
  (exists c a b, args (s_g st) v = [c; a; b]) ->
  exists t, regrouped [v] st [t] st' /\ ql' = ql ++ ready_operands st' (tl_ t) /\ qr' = qr ++ ready_operands st' (tr_ t) /\
    (forall x, In x ql' -> In x ql \/ In x (args (s_g st) v)) /\ (forall x, In x qr' -> In x qr \/ In x (args (s_g st) v)).
Proof.
  intros E CG Ll Lr Lv Nv (c & a & b & Ea). unfold group_step in E. rewrite Ea in E. cbn [nth_error] in E.
  destruct (create_operation st l OCopy _ [a]) as [[st1 cl]| | | |] eqn:E1; cbn [bind fst snd] in E; try discriminate.
  assert (La : a < g_next (s_g st)) by (apply (cg_args _ CG v); rewrite Ea; right; now left).
  assert (Lb : b < g_next (s_g st)) by (apply (cg_args _ CG v); rewrite Ea; right; right; now left).
  pose proof (create_closed _ _ _ _ [a] _ _ CG Ll ltac:(intros x [<-|[]]; exact La) E1) as CG1.
  destruct (create_operation_spec _ _ _ _ [a] _ _ Ll ltac:(intros [K|[]]; lia) E1) as (-> & G1 & V1 & L1 & O1 & A1 & P1 & _ & B1 & An1 & D1).
  set (cl := g_next (s_g st)) in *.
  destruct (create_operation st1 r OCopy _ [b]) as [[st2 cr]| | | |] eqn:E2; cbn [bind fst snd] in E; try discriminate.
  assert (Lr1 : r < length (s_blocks st1)) by lia.
  pose proof (create_closed _ _ _ _ [b] _ _ CG1 Lr1 ltac:(intros x [<-|[]]; lia) E2) as CG2.
  destruct (create_operation_spec _ _ _ _ [b] _ _ Lr1 ltac:(intros [K|[]]; lia) E2) as (-> & G2 & V2 & L2 & O2 & A2 & P2 & _ & B2 & An2 & D2).
  set (cr := g_next (s_g st1)) in *.
  destruct (set_operation (s_g st2) v OPhi _ [cl; cr]) as [g3| | | |] eqn:E3; cbn [bind] in E; try discriminate.
  destruct (set_operation_spec (s_g st2) v OPhi (ty_of (s_g st2) cl) [cl; cr] (cg_use _ CG2)) as (g3' & E3' & G3 & O3 & _ & P3 & A3 & U3);
    [reflexivity|intros [K|[K|[]]]; lia|]. rewrite E3 in E3'. injection E3' as <-. cbn [maybe_sort commutative] in A3.
  destruct (set_parent g3 v o) as [g4| | | |] eqn:E4; cbn [bind] in E; try discriminate.
  destruct (set_parent_spec _ _ _ _ E4) as (_ & G4 & O4 & A4 & C4 & P4).
  injection E as <- <- <-. exists (v, cl, cr).
  assert (Cl : cl < g_next (s_g st1) /\ cl < cr /\ cr < g_next (s_g st2)) by lia.
  assert (CG4 : closed_graph g4).
  { constructor.
    - intros x y. rewrite C4, A4. apply U3.
    - intros x y. rewrite A4, A3, G4, G3. destruct (Nat.eqb_spec x v); [intros [<-|[<-|[]]]; lia|]. apply (cg_args _ CG2).
    - intros x Lx. rewrite G4, G3 in Lx. rewrite A4, A3, P4, P3. destruct (Nat.eqb_spec x v); [lia|]. apply (cg_fresh _ CG2). exact Lx. }
  assert (AT : forall x, args g4 x = if x =? v then [cl; cr] else if x =? cr then [b] else if x =? cl then [a] else args (s_g st) x).
  { intros x. now rewrite A4, A3, A2, A1. }
  assert (OT : forall x, op_of g4 x = if x =? v then OPhi else if x =? cr then OCopy else if x =? cl then OCopy else op_of (s_g st) x).
  { intros x. now rewrite O4, O3, O2, O1. }
  assert (PT : forall x, parent g4 x = if x =? v then S o else if x =? cr then S r else if x =? cl then S l else parent (s_g st) x).
  { intros x. now rewrite P4, P3, P2, P1. }
  split; [|split; [reflexivity|split; [reflexivity|split]]].
  - constructor; cbn [s_g s_blocks s_visited visit map tv tl_ tr_ fst snd].
    + reflexivity.
    + lia.
    + lia.
    + exact CG4.
    + intros t [<-|[]]. cbn [tv tl_ tr_ fst snd]. rewrite OT, AT, PT, Nat.eqb_refl. auto.
    + intros t [<-|[]]. cbn [tv tl_ tr_ fst snd]. rewrite OT, AT, PT, Nat.eqb_refl.
      destruct (Nat.eqb_spec cl v); [lia|]. destruct (Nat.eqb_spec cl cr); [lia|]. split; [lia|]. split; [auto|]. split; [auto|]. eauto.
    + intros t [<-|[]]. cbn [tv tl_ tr_ fst snd]. rewrite OT, AT, PT, Nat.eqb_refl.
      destruct (Nat.eqb_spec cr v); [lia|]. split; [lia|]. split; [auto|]. split; [auto|]. eauto.
    + intros x Lx Nx. rewrite OT, AT, PT. destruct (Nat.eqb_spec x v); [cbn in Nx; intuition congruence|]. destruct (Nat.eqb_spec x cr); [lia|]. destruct (Nat.eqb_spec x cl); [lia|]. auto.
    + intros x Lx. assert (x = cl \/ x = cr) as [->| ->] by lia; cbn; auto.
    + repeat constructor; auto.
    + repeat constructor; auto.
    + intros t. rewrite B2, B1. destruct (Nat.eqb_spec t r), (Nat.eqb_spec t l); try reflexivity. congruence.
    + intros t. now rewrite An2, An1.
    + intros t. now rewrite D2, D1.
    + intros x. cbn. rewrite V2, V1, G4, G3, G2. fold cr. rewrite G1. fold cl. 
      assert (cr = S cl) by lia. intuition lia.
  - intros x Hx. rewrite in_app_iff in Hx. destruct Hx as [|Hx]; auto. unfold ready_operands in Hx. apply filter_In in Hx. destruct Hx as [Hx _].
    cbn [s_g visit] in Hx. rewrite AT in Hx. destruct (Nat.eqb_spec cl v); [lia|]. destruct (Nat.eqb_spec cl cr); [lia|]. rewrite Nat.eqb_refl in Hx.
    destruct Hx as [<-|[]]. right. rewrite Ea. cbn. auto.
  - intros x Hx. rewrite in_app_iff in Hx. destruct Hx as [|Hx]; auto. unfold ready_operands in Hx. apply filter_In in Hx. destruct Hx as [Hx _].
    cbn [s_g visit] in Hx. rewrite AT in Hx. destruct (Nat.eqb_spec cr v); [lia|]. rewrite Nat.eqb_refl in Hx.
    destruct Hx as [<-|[]]. right. rewrite Ea. cbn. auto.
Qed.

Lemma group_all : forall vs st ql qr st' ql' qr', mfold (group_step l r o) vs (st, ql, qr) = Ok (st', ql', qr') ->
  closed_graph (s_g st) -> l < length (s_blocks st) -> r < length (s_blocks st) -> NoDup vs ->
  (forall v, In v vs -> v < g_next (s_g st) /\ ~ In v (args (s_g st) v) /\ exists c a b, args (s_g st) v = [c; a; b]) ->
  exists ts, regrouped vs st ts st' /\
    (forall x, In x ql' -> In x ql \/ exists v, In v vs /\ In x (args (s_g st) v)) /\
    (forall x, In x qr' -> In x qr \/ exists v, In v vs /\ In x (args (s_g st) v)).
Proof.
  induction vs as [|v vs IH]; intros st ql qr st' ql' qr' E CG Ll Lr ND Hv; cbn [mfold] in E.
  - injection E as <- <- <-. exists []. split; [|split; auto]. constructor; cbn [map In]; auto; try (now intros ? []); try apply NoDup_nil.
    + intros x L. lia.
    + intros t. destruct (t =? l); [now rewrite app_nil_r|]. destruct (t =? r); [now rewrite app_nil_r|auto].
    + intros x. split; auto. intros [|[[]|]]; auto. lia.
  - destruct (group_step l r o (st, ql, qr) v) as [[[st1 ql1] qr1]| | | |] eqn:E1; cbn [bind] in E; try discriminate.
    inversion ND as [|? ? Nv ND']; subst. destruct (Hv v (or_introl eq_refl)) as (Lv & Sv & Av).
    destruct (group_one _ _ _ _ _ _ _ E1 CG Ll Lr Lv Sv Av) as (t & R1 & _ & _ & Q1 & Q2).
    assert (SA : forall w, In w vs -> w < g_next (s_g st) /\ args (s_g st1) w = args (s_g st) w).
    { intros w Hw. destruct (Hv w (or_intror Hw)) as (Lw & _). split; auto.
      apply (rg_same _ _ _ _ R1); auto. intros [->|[]]. contradiction. }
    destruct (IH st1 ql1 qr1 st' ql' qr' E) as (ts & R2 & Q3 & Q4).
    + apply (rg_closed _ _ _ _ R1).
    + rewrite (rg_len _ _ _ _ R1). exact Ll.
    + rewrite (rg_len _ _ _ _ R1). exact Lr.
    + exact ND'.
    + intros w Hw. destruct (SA w Hw) as [Lw Ew]. destruct (Hv w (or_intror Hw)) as (_ & Sw & Aw). rewrite Ew. split; auto.
      pose proof (rg_next _ _ _ _ R1). lia.
    + exists (t :: ts). destruct R1 as [V1 L1 N1 C1 P1 Le1 Ri1 S1 W1 NL1 NR1 B1 A1 D1 Vi1], R2 as [V2 L2 N2 C2 P2 Le2 Ri2 S2 W2 NL2 NR2 B2 A2 D2 Vi2].
      cbn in V1. injection V1 as Et.
      destruct (Le1 t (or_introl eq_refl)) as (R1a & O1a & Pa1a & Ar1a). destruct (Ri1 t (or_introl eq_refl)) as (R1b & O1b & Pa1b & Ar1b).
      destruct (P1 t (or_introl eq_refl)) as (O1c & A1c & P1c). rewrite Et in *.
      assert (Old : forall x, x < g_next (s_g st1) -> x = v \/ g_next (s_g st) <= x -> ~ In x vs).
      { intros x Lx [->|Gx] Hx; [auto|]. destruct (SA x Hx). lia. }
      split; [constructor|split].
      * cbn. now rewrite Et, V2.
      * lia.
      * lia.
      * exact C2.
      * intros u [<-|Hu]; auto. rewrite Et. destruct (S2 v) as (-> & -> & ->); auto. lia.
      * intros u [<-|Hu].
        -- rewrite Et. destruct (S2 (tl_ t)) as (-> & -> & ->); [lia|apply Old; lia|]. split; [lia|auto].
        -- destruct (Le2 u Hu) as (X1 & X2 & X3 & c & a & b & X4 & X5). split; [lia|]. split; [auto|]. split; [auto|].
           exists c, a, b. split; auto. rewrite <- X4. symmetry. apply SA. rewrite <- V2. now apply in_map.
      * intros u [<-|Hu].
        -- rewrite Et. destruct (S2 (tr_ t)) as (-> & -> & ->); [lia|apply Old; lia|]. split; [lia|auto].
        -- destruct (Ri2 u Hu) as (X1 & X2 & X3 & c & a & b & X4 & X5). split; [lia|]. split; [auto|]. split; [auto|].
           exists c, a, b. split; auto. rewrite <- X4. symmetry. apply SA. rewrite <- V2. now apply in_map.
      * intros x Lx Nx. destruct (S2 x) as (-> & -> & ->); [lia|intros K; apply Nx; now right|]. apply S1; auto. intros [->|[]]. apply Nx. now left.
      * intros x Lx. cbn. destruct (Nat.lt_ge_cases x (g_next (s_g st1))).
        -- destruct (W1 x ltac:(lia)) as [[|[]]|[|[]]]; auto.
        -- destruct (W2 x ltac:(lia)); auto.
      * cbn. constructor; auto. intros K. apply in_map_iff in K. destruct K as (u & Eu & Hu). destruct (Le2 u Hu) as (X & _). lia.
      * cbn. constructor; auto. intros K. apply in_map_iff in K. destruct K as (u & Eu & Hu). destruct (Ri2 u Hu) as (X & _). lia.
      * intros x. rewrite B2, B1. cbn. destruct (x =? l); [now rewrite <- app_assoc|]. destruct (x =? r); [now rewrite <- app_assoc|auto].
      * intros x. now rewrite A2, A1.
      * intros x. now rewrite D2, D1.
      * intros x. rewrite Vi2, Vi1. cbn. intuition lia.
      * intros x Hx. destruct (Q3 x Hx) as [Hx'|(w & Hw & Hx')].
        -- destruct (Q1 x Hx') as [|K]; auto. right. exists v. split; [now left|auto].
        -- right. exists w. split; [now right|]. rewrite <- (proj2 (SA w Hw)). auto.
      * intros x Hx. destruct (Q4 x Hx) as [Hx'|(w & Hw & Hx')].
        -- destruct (Q2 x Hx') as [|K]; auto. right. exists v. split; [now left|auto].
        -- right. exists w. split; [now right|]. rewrite <- (proj2 (SA w Hw)). auto.
Qed.
End Group.
