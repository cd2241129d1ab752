(** The conversion always ends, and ends with a result. *)
From Coq Require Import String List Arith ZArith Bool Lia Permutation.
From Verif Require Import Outcome NumProofs IrModel IrSpec IrProofs CfgModel CfgSpec CountProofs ConvModel ConvSpec ConvShape ConvBlocks ConvGroup ConvInv ConvBranch ConvProcess ConvOptional ConvConvert ConvCopies ConvRun ConvProofs ConvTotal.
Import ListNotations.
Open Scope outcome_scope.
Open Scope nat_scope.

Lemma front_total st e key : e < length (s_blocks st) -> banc (s_blocks st) e = [] -> exists st', put_front st e key = Ok st'.
Proof.
  intros Le Ue. unfold put_front. cbn [create_block s_g s_blocks s_visited]. set (nb := length (s_blocks st)) in *.
  assert (B1 : forall t, nth_block (s_blocks st ++ [mkb [] [] []]) t = nth_block (s_blocks st) t).
  { intros t. rewrite nth_block_app. fold nb. destruct (Nat.eqb_spec t nb); [now rewrite nth_block_out by (fold nb; lia)|auto]. }
  assert (L1 : length (s_blocks st ++ [mkb [] [] []]) = S nb) by (rewrite app_length; cbn; fold nb; lia).
  assert (Out : forall t, nb <= t -> bdesc (s_blocks st) t = [] /\ banc (s_blocks st) t = []) by (intros t L; rewrite nth_block_out by (fold nb; lia); auto).
  destruct (add_descendant_total (s_blocks st ++ [mkb [] [] []]) nb e) as (bl2 & E2); [lia|lia|rewrite B1, (proj1 (Out nb ltac:(lia))); intros []|rewrite B1, Ue; intros []|].
  rewrite E2. cbn [bind]. destruct (add_descendant_spec (s_blocks st ++ [mkb [] [] []]) nb e bl2 ltac:(lia) ltac:(lia) E2) as (L2 & O2 & D2 & A2).
  cbn [create_block s_g s_blocks s_visited]. rewrite L2, L1.
  set (st3 := mks (s_g st) (bl2 ++ [mkb [] [] []]) (s_visited st)) in *.
  assert (B3 : forall t, nth_block (s_blocks st3) t = nth_block bl2 t).
  { intros t. unfold st3. cbn [s_blocks]. rewrite nth_block_app. destruct (Nat.eqb_spec t (length bl2)); [now rewrite nth_block_out by lia|auto]. }
  assert (L3 : length (s_blocks st3) = S (S nb)) by (unfold st3; cbn [s_blocks]; rewrite app_length, L2, L1; cbn; lia).
  destruct (create_total st3 (S nb) (OOutReq key) TVoid [] eq_refl) as (st4 & cq & E4). rewrite E4. cbn [bind fst snd].
  destruct (create_operation_spec st3 (S nb) (OOutReq key) TVoid [] st4 cq ltac:(lia) ltac:(intros []) E4) as (Ec & G4 & V4 & L4 & O4 & A4 & P4 & _ & B4 & An4 & D4).
  destruct (create_total st4 (S nb) OJump TVoid [cq] eq_refl) as (st5 & jv & E5). rewrite E5. cbn [bind fst snd].
  destruct (create_operation_spec st4 (S nb) OJump TVoid [cq] st5 jv ltac:(lia) ltac:(intros [K|[]]; lia) E5) as (Ej & G5 & V5 & L5 & O5 & A5 & P5 & _ & B5 & An5 & D5).
  assert (DD : forall t, bdesc (s_blocks st5) t = if t =? nb then [e] else bdesc (s_blocks st) t).
  { intros t. rewrite D5, D4, B3, D2, B1. destruct (Nat.eqb_spec t nb) as [->|]; [|auto]. rewrite (proj1 (Out nb ltac:(lia))). reflexivity. }
  assert (AA : forall t, banc (s_blocks st5) t = if t =? e then [nb] else banc (s_blocks st) t).
  { intros t. rewrite An5, An4, B3, A2, B1. destruct (Nat.eqb_spec t e) as [->|]; [|auto]. rewrite Ue. reflexivity. }
  destruct (add_descendant_total (s_blocks st5) (S nb) nb) as (bl6 & E6); [lia|lia| | |].
  { rewrite DD. destruct (Nat.eqb_spec (S nb) nb); [lia|]. rewrite (proj1 (Out (S nb) ltac:(lia))). intros []. }
  { rewrite AA. destruct (Nat.eqb_spec nb e); [lia|]. rewrite (proj2 (Out nb ltac:(lia))). intros []. }
  rewrite E6. cbn [bind]. destruct (add_descendant_spec (s_blocks st5) (S nb) nb bl6 ltac:(lia) ltac:(lia) E6) as (L6 & O6 & D6 & A6).
  destruct (add_descendant_total bl6 (S nb) e) as (bl7 & E7); [lia|lia| | |].
  { rewrite D6, Nat.eqb_refl, DD. destruct (Nat.eqb_spec (S nb) nb); [lia|]. rewrite (proj1 (Out (S nb) ltac:(lia))). cbn. lia. }
  { rewrite A6. destruct (Nat.eqb_spec e nb); [lia|]. rewrite AA, Nat.eqb_refl. cbn. lia. }
  rewrite E7. cbn [bind]. eauto.
Qed.

(** The optional outputs in terms of the branch put in front. *)
Lemma optional_step_front fuel ct st e v key : e < length (s_blocks st) -> op_of (s_g st) v = OSave 0 key ->
  optional_step fuel ct (st, e) v =
  (let* s1 := put_front st e key in
   let* r := process fuel ct s1 [v] (length (s_blocks st)) [] in let '(st3, _, later) := r in
   let* r := process fuel ct st3 later (S (length (s_blocks st))) [] in let '(st4, next', later) := r in
   let* _ := nothing_deferred later in Ok (st4, next')).
Proof.
  intros Le Ov. unfold optional_step, put_front. rewrite Ov. cbn [create_block s_g s_blocks s_visited]. set (n := length (s_blocks st)) in *.
  destruct (add_descendant (s_blocks st ++ [mkb [] [] []]) n e) as [bl2| | | |] eqn:E2; cbn [bind]; auto.
  destruct (add_descendant_spec (s_blocks st ++ [mkb [] [] []]) n e bl2) as (L2 & _); auto; [rewrite app_length; cbn; fold n; lia|rewrite app_length; cbn; fold n; lia|].
  assert (L3 : length bl2 = S n) by (rewrite L2, app_length; cbn; fold n; lia). cbn [create_block s_g s_blocks s_visited]. rewrite L3.
  destruct (create_operation _ (S n) (OOutReq key) TVoid []) as [[st4 cq]| | | |] eqn:E4; cbn [bind fst snd]; auto.
  destruct (create_operation st4 (S n) OJump TVoid [cq]) as [[st5 jv]| | | |] eqn:E5; cbn [bind fst snd]; auto.
  destruct (add_descendant (s_blocks st5) (S n) n) as [bl6| | | |] eqn:E6; cbn [bind]; auto.
  destruct (add_descendant bl6 (S n) e) as [bl7| | | |] eqn:E7; cbn [bind]; auto.
Qed.

Lemma phi_grows g0 st st' : grows g0 st st' -> phi g0 st' <= phi g0 st.
Proof. intros G. pose proof (phi_drop g0 [] (fun _ => False) (fun _ F => match F with end) (fun _ _ F _ => F) st st' [] (proj1 G) (NoDup_nil _)) as K. cbn in K. rewrite Nat.add_0_r in K. apply K. intros v []. Qed.

Section Finish.
Variables (A : algebra) (Q : selecting A) (T : typing) (g0 : graph) (ops0 : list name) (r0 : name -> D A).
Hypothesis P0 : program T g0 0 ops0.
Hypothesis C0 : consistent r0 g0 ops0.
Hypothesis H0 : outputs_ok g0 ops0.
Notation N0 := (g_next g0).
Variable ct : bool.
Notation okset := (okset g0 ops0).

Lemma front_keeps ok r e opts st key st' : inv A Q g0 r0 ok r e opts st -> put_front st e key = Ok st' ->
  grows g0 st st' /\ phi g0 st' = phi g0 st /\ (forall l, covers g0 st l -> covers g0 st' l) /\ (no_selects g0 ct st -> no_selects g0 ct st') /\
  (forall x, x < N0 -> cons_of (s_g st) x = [] -> cons_of (s_g st') x = []) /\
  banc (s_blocks st') (length (s_blocks st)) = [S (length (s_blocks st))] /\ banc (s_blocks st') (S (length (s_blocks st))) = [] /\
  bops (s_blocks st') (S (length (s_blocks st))) <> [].
Proof.
  intros I E. pose proof (i_core _ _ _ _ _ _ _ _ _ I) as CO. pose proof (i_closed _ _ _ _ _ _ _ _ _ I) as CG.
  pose proof (sh_entry _ _ _ _ (c_shape _ _ _ _ _ _ _ _ _ CO)) as Le. pose proof (sh_root _ _ _ _ (c_shape _ _ _ _ _ _ _ _ _ CO)) as Re. cbn beta in Re.
  destruct (put_front_spec st e key st' Le Re CG E) as (L' & V' & _ & (_ & Ub & Uj & _) & (Bj & _) & G' & CG' & O' & A' & P').
  pose proof (i_next _ _ _ _ _ _ _ _ _ I) as LN. set (N := g_next (s_g st)) in *.
  assert (Vis : forall x, is_visited st' x = is_visited st x) by (intros x; unfold is_visited; now rewrite V').
  assert (Ar : forall x c, x < N0 -> In x (args (s_g st') c) <-> In x (args (s_g st) c)).
  { intros x c Lx. rewrite A'. destruct (Nat.eqb_spec c (S N)) as [->|].
    - rewrite (proj1 (cg_fresh _ CG (S N) ltac:(fold N; lia))). cbn. intuition lia.
    - destruct (Nat.eqb_spec c N) as [->|]; [|tauto]. rewrite (proj1 (cg_fresh _ CG N ltac:(fold N; lia))). tauto. }
  assert (Cn : forall x c, x < N0 -> In c (cons_of (s_g st') x) <-> In c (cons_of (s_g st) x)).
  { intros x c Lx. rewrite (def_use_in _ (cg_use _ CG')), (def_use_in _ (cg_use _ CG)). now apply Ar. }
  assert (Cnil : forall x, x < N0 -> cons_of (s_g st) x = [] <-> cons_of (s_g st') x = []).
  { intros x Lx. split; intros K; [destruct (cons_of (s_g st') x) as [|c q] eqn:Ec|destruct (cons_of (s_g st) x) as [|c q] eqn:Ec]; auto; exfalso.
    - apply (in_nil (a := c)). rewrite <- K. apply Cn; auto. rewrite Ec. now left.
    - apply (in_nil (a := c)). rewrite <- K. apply Cn; auto. rewrite Ec. now left. }
  assert (All : forall x, x < N0 -> all_consumers_visited st' x = true <-> all_consumers_visited st x = true).
  { intros x Lx. unfold all_consumers_visited. rewrite !forallb_forall. split; intros H c Hc; specialize (H c); rewrite Vis in *; apply H; now apply Cn. }
  split; [|split; [|split; [|split; [|split; [|split; [|split]]]]]]; auto.
  - split; [intros x; now rewrite Vis|]. intros x Lx. now apply All.
  - unfold phi. f_equal. apply map_ext. intros x. now rewrite Vis.
  - intros l Co v (X1 & X2 & X3 & X4). apply Co. split; auto. rewrite Vis in X2. split; auto. split; [rewrite Cnil; auto|now apply All].
  - intros (X1 & X2 & X3). split; [|split].
    + intros Ect v Pv. rewrite O'. rewrite P' in Pv. destruct (Nat.eqb_spec v (S N)); [discriminate|]. destruct (Nat.eqb_spec v N); [discriminate|auto].
    + intros a c Ha La Lc. rewrite Vis. apply (X2 a c); auto. now apply Ar.
    + intros a c Ha. destruct (X3 a c Ha) as (c' & K). exists c'. apply Ar; auto. apply (bo_fresh g0 0 ops0 (proj1 P0)). now apply (operand_in T g0 ops0 P0 c a).
  - intros x Lx. now apply Cnil.
  - rewrite Bj. discriminate.
Qed.

Lemma optional_total (ok ok' : name -> Prop) fuel r e opts st v key :
  (forall x, ok' x -> In x ops0) -> (forall x a, ok' x -> In a (args g0 x) -> ok' a) -> (forall x, ok x -> ok' x) -> ok' v -> ~ ok v ->
  (forall c, ~ In v (args g0 c)) -> op_of g0 v = OSave 0 key ->
  inv A Q g0 r0 ok r e opts st -> covers g0 st [] -> no_selects g0 ct st -> S (phi g0 st) < fuel ->
  exists st' e', optional_step fuel ct (st, e) v = Ok (st', e') /\ covers g0 st' [] /\ no_selects g0 ct st' /\ phi g0 st' <= phi g0 st.
Proof.
  intros K1 K2 Km Kv Nv Rv Og I Co Ns Lf.
  assert (Lv : v < N0) by (apply (bo_fresh g0 0 ops0 (proj1 P0)); auto).
  assert (Pv : parent (s_g st) v = 0).
  { destruct (parent (s_g st) v) eqn:Ep; auto. exfalso. apply Nv. apply (i_src _ _ _ _ _ _ _ _ _ I v Lv). congruence. }
  destruct (unplaced_same _ _ _ _ _ _ _ _ _ v I Lv Pv) as [Ov _].
  assert (Cv : cons_of (s_g st) v = []).
  { destruct (cons_of (s_g st) v) as [|c q] eqn:Ec; auto. exfalso. assert (In c (cons_of (s_g st) v)) as Z by (rewrite Ec; now left).
    apply (def_use_in _ (c_use _ _ _ _ _ _ _ _ _ (i_core _ _ _ _ _ _ _ _ _ I))) in Z. destruct (i_rd _ _ _ _ _ _ _ _ _ I v c Z Lv) as (c0 & Z'). exact (Rv c0 Z'). }
  pose proof (i_core _ _ _ _ _ _ _ _ _ I) as CO. pose proof (sh_entry _ _ _ _ (c_shape _ _ _ _ _ _ _ _ _ CO)) as Le. pose proof (sh_root _ _ _ _ (c_shape _ _ _ _ _ _ _ _ _ CO)) as Re. cbn beta in Re.
  rewrite (optional_step_front fuel ct st e v key Le ltac:(congruence)).
  destruct (front_total st e key Le Re) as (s1 & Ef). rewrite Ef. cbn [bind].
  destruct (front_keeps ok r e opts st key s1 I Ef) as (G1 & Ph1 & Co1 & Ns1 & Cn1 & Bl & Bj & Ne).
  destruct (front_inv A Q g0 r0 ok r e opts st key s1 I Ef) as (r1 & I1 & F1 & L1 & S1 & Hp1).
  set (n := length (s_blocks st)) in *.
  apply (inv_mono A Q g0 r0 ok ok') in I1; auto.
  destruct (process_total A Q T g0 ops0 r0 P0 C0 ok' K1 K2 ct ((n, key) :: opts) fuel s1 [v] n [] r1 (S n) [] I1) as (st3 & bk3 & later & E3 & G3 & S3 & Co3 & Ns3 & M3 & _ & Ba3).
  { lia. } { intros x [<-|[]]; auto. } { intros x []. } { intros x t X Y. specialize (Hp1 x t X Y). lia. }
  { intros x [<-|[]]. split; auto. unfold all_consumers_visited. now rewrite (Cn1 v Lv Cv). }
  { intros x []. } { intros x Rx. destruct (Co1 _ Co x Rx). } { auto. }
  { intros a Ha. rewrite Bl in Ha. destruct Ha as [<-|[]]. exact Ne. } { cbn [length]. lia. }
  rewrite E3. cbn [bind].
  destruct (process_inv A Q T g0 ops0 r0 P0 C0 ok' K1 K2 ct _ fuel s1 [v] n [] st3 bk3 later r1 (S n) E3 I1) as (r3 & e3 & I3 & F3 & D3 & _ & Ke3 & _ & _).
  { lia. } { intros x [<-|[]]; auto. } { intros x []. } { intros x t X Y. specialize (Hp1 x t X Y). lia. }
  rewrite Ke3 in * by lia. clear Ke3 e3. pose proof F3 as (_ & L3 & _ & P3 & Ph3 & Sf3). rewrite app_nil_r in Co3. cbn [length] in M3.
  destruct (process_total A Q T g0 ops0 r0 P0 C0 ok' K1 K2 ct ((n, key) :: opts) fuel st3 later (S n) [] r3 (S n) [] I3) as (st4 & e4 & later4 & E4 & G4 & S4 & Co4 & Ns4 & M4 & De4 & Ba4).
  { lia. } { auto. } { intros x []. }
  { intros x t X Y Et. subst t. destruct (Ph3 x (S n) X Y) as [X' Y']; [lia|lia|]. specialize (Hp1 x (S n) X' Y'). lia. }
  { auto. } { intros x []. } { rewrite app_nil_r. auto. } { auto. }
  { intros a Ha. rewrite Ba3, Bj in Ha by lia. destruct Ha. } { cbn [length]. lia. }
  rewrite E4. cbn [bind]. rewrite (De4 eq_refl) in *. cbn [nothing_deferred bind]. exists st4, e4. split; auto. split; [auto|]. split; [auto|].
  apply phi_grows in G3. apply phi_grows in G4. lia.
Qed.

Lemma optionals_total fuel : forall l done r e opts st, NoDup l ->
  (forall v, In v l -> In v ops0 /\ ~ In v done /\ exists k, op_of g0 v = OSave 0 k) ->
  inv A Q g0 r0 (okset done) r e opts st -> covers g0 st [] -> no_selects g0 ct st -> S (phi g0 st) < fuel ->
  exists st' e', mfold (optional_step fuel ct) l (st, e) = Ok (st', e') /\ covers g0 st' [] /\ no_selects g0 ct st' /\ phi g0 st' <= phi g0 st.
Proof.
  induction l as [|v l IH]; intros done r e opts st ND HL I Co Ns Lf; cbn [mfold]; [exists st, e; auto|].
  inversion ND as [|v' l' Nv ND']; subst. destruct (HL v (or_introl eq_refl)) as (Iv & Dv & k & Ev).
  assert (Rv : forall w, ~ In v (args g0 w)) by (apply (proj2 (proj2 (proj2 H0 v 0 k ltac:(apply (bo_fresh g0 0 ops0 (proj1 P0)); auto) Ev)))).
  assert (Q1 : forall x, okset (v :: done) x -> In x ops0) by apply okset1.
  assert (Q2 : forall x a, okset (v :: done) x -> In a (args g0 x) -> okset (v :: done) a) by (intros x a; apply (okset2 T g0 ops0 P0 H0)).
  assert (Q3 : forall x, okset done x -> okset (v :: done) x) by (intros x [X Y]; split; auto; intros Z; right; auto).
  assert (Q4 : okset (v :: done) v) by (split; auto; intros _; now left).
  assert (Q5 : ~ okset done v) by (intros [_ K]; rewrite Ev in K; auto).
  destruct (optional_total (okset done) (okset (v :: done)) fuel r e opts st v k Q1 Q2 Q3 Q4 Q5 Rv Ev I Co Ns Lf) as (st1 & e1 & E1 & Co1 & Ns1 & Ph1).
  rewrite E1. cbn [bind].
  destruct (optional_inv A Q T g0 ops0 r0 P0 C0 (okset done) (okset (v :: done)) fuel ct r e opts st v st1 e1 Q1 Q2 Q3 Q4 Q5 Rv I E1) as (r1 & B & key & Ek & I1 & _).
  destruct (IH (v :: done) r1 e1 ((B, key) :: opts) st1 ND') as (st' & e' & E' & Co' & Ns' & Ph'); eauto; [|lia|].
  { intros w Hw. destruct (HL w (or_intror Hw)) as (X & Y & Z). split; auto. split; auto. intros [<-|K]; auto. }
  exists st', e'. split; auto. split; auto. split; auto. lia.
Qed.

(** Every operation the outputs need was moved. *)
Lemma all_moved r e opts st ok : inv A Q g0 r0 ok r e opts st -> covers g0 st [] -> no_selects g0 ct st ->
  no_dead g0 ops0 -> (forall v u k, v < N0 -> op_of g0 v = OSave u k -> parent (s_g st) v <> 0) ->
  forall v, In v ops0 -> parent (s_g st) v <> 0.
Proof.
  intros I Co (_ & Nv & Nu) Lv Sv.
  assert (W : forall l2 l1, ops0 = l1 ++ l2 -> forall v, In v l2 -> is_visited st v = true).
  { induction l2 as [|x l2 IH]; intros l1 El v; [intros []|]. assert (IH' : forall w, In w l2 -> is_visited st w = true) by (apply (IH (l1 ++ [x])); rewrite <- app_assoc; exact El).
    intros [<-|Hv]; auto. destruct (is_visited st x) eqn:Ex; auto. exfalso.
    assert (Ix : In x ops0) by (rewrite El, in_app_iff; right; now left). pose proof (bo_fresh g0 0 ops0 (proj1 P0) x Ix) as Lx.
    assert (Un : parent (s_g st) x = 0) by (apply (unvisited_unplaced _ _ _ _ _ _ _ _ _ x I Lx Ex)).
    assert (ND : NoDup (l1 ++ x :: l2)) by (rewrite <- El; apply (bo_nodup g0 0 ops0 (proj1 P0))).
    pose proof (i_closed _ _ _ _ _ _ _ _ _ I) as CG.
    assert (Use : exists c, In x (args g0 c)).
    { destruct (Lv x Ix) as [K|(c & _ & K)]; [|eauto]. destruct (sink_save T g0 ops0 P0 x Ix K) as (u & k & Ek). destruct (Sv x u k Lx Ek Un). }
    destruct Use as (c0 & Hc0). destruct (Nu x c0 Hc0) as (c' & Hc').
    apply (Co x). split; auto. split; auto. split.
    - intros K. apply (def_use_in _ (cg_use _ CG)) in Hc'. rewrite K in Hc'. contradiction.
    - unfold all_consumers_visited. apply forallb_forall. intros c Hc. apply (def_use_in _ (cg_use _ CG)) in Hc.
      destruct (Nat.lt_ge_cases c N0) as [Lc|Lc]; [|exact (Nv x c Hc Lx Lc)].
      destruct (is_visited st c) eqn:Ec; auto. pose proof (unvisited_unplaced _ _ _ _ _ _ _ _ _ c I Lc Ec) as Pc. destruct (unplaced_same _ _ _ _ _ _ _ _ _ c I Lc Pc) as [_ Ac].
      rewrite Ac in Hc. destruct (operand_in T g0 ops0 P0 c x Hc) as [Ic _]. pose proof (proj2 P0 c x Ic Hc) as B.
      assert (K : In c l2).
      { rewrite El in Ic, B. rewrite in_app_iff in Ic. destruct Ic as [Ic|[<-|Ic]]; auto; exfalso.
        - apply (before_irrefl _ x ND). apply (before_trans _ x c x ND B). apply before_app; auto. now left.
        - exact (before_irrefl _ x ND B). }
      rewrite (IH' c K) in Ec. discriminate. }
  intros v Iv. apply (i_vis _ _ _ _ _ _ _ _ _ I). apply mem_in. exact (W ops0 [] eq_refl v Iv).
Qed.
End Finish.

(** Removing copies. *)
Section CopiesTotal.
Variables (A : algebra) (Q : selecting A) (g0 : graph) (r : name -> D A) (opts : list (nat * string)) (down up : nat -> list nat) (n e : nat).
Notation settled := (settled A Q g0 r opts down up n e).
Definition placed (g : graph) : Prop := forall v a, In a (args g v) -> parent g a <> 0.

Lemma copies_block_total t : forall l g ops kept, settled g ops -> ops t = kept ++ l -> placed g ->
  exists g' kept', mfold copy_step l (g, kept) = Ok (g', kept') /\ placed g' /\ (forall x, op_of g' x = op_of g x).
Proof.
  induction l as [|v l IH]; intros g ops kept S Et Pl; cbn [mfold]; [eauto|]. unfold copy_step at 1.
  assert (Keep : exists g' kept', mfold copy_step l (g, kept ++ [v]) = Ok (g', kept') /\ placed g' /\ (forall x, op_of g' x = op_of g x)).
  { apply (IH g ops); auto. rewrite <- app_assoc. exact Et. }
  destruct (is_copy (op_of g v)) eqn:Ec; cbn [bind]; [|auto].
  assert (Kv : In v (ops t)) by (rewrite Et, in_app_iff; right; now left).
  assert (Ov : op_of g v = OCopy) by (destruct (op_of g v); try discriminate; auto).
  assert (Fa : exists a, args g v = [a] /\ first_operand g v = Ok a).
  { unfold first_operand. pose proof (s_ar _ _ _ _ _ _ _ _ _ _ _ S v t Kv) as X. rewrite Ov in X. destruct (args g v) as [|a' [|b q]]; try discriminate. eauto. }
  destruct Fa as (a & Av & Fa). rewrite Fa. cbn [bind].
  destruct (Nat.eqb_spec (parent g a) (parent g v)) as [Pa|Na]; cbn [bind]; [|auto].
  pose proof (s_core _ _ _ _ _ _ _ _ _ _ _ S) as CO. pose proof (c_own _ _ _ _ _ _ _ _ _ CO v t Kv) as Pv. pose proof (c_use _ _ _ _ _ _ _ _ _ CO) as U.
  assert (Nva : v <> a).
  { intros X. destruct (c_avail _ _ _ _ _ _ _ _ _ CO v t a t Kv) as (_ & _ & B); [congruence|rewrite Av; now left|congruence|]. specialize (B eq_refl). rewrite <- X in B.
    exact (before_irrefl _ _ (c_nodup _ _ _ _ _ _ _ _ _ CO t) B). }
  destruct (replace_with_spec g v a U Nva) as (g1 & E1 & G1 & O1 & _ & P1 & Ap1 & _ & _ & _ & U1 & C1). rewrite E1. cbn [bind].
  destruct (remove_value_spec g1 v U1 C1) as (g2 & E2 & G2 & O2 & _ & P2 & A2 & U2 & _ & _). rewrite E2. cbn [bind].
  destruct (copy_settled A Q g0 r opts down up n e g ops t kept v l a g1 g2 (fun u => if u =? t then kept ++ l else ops u) S Et) as (S2 & _ & _ & _); auto.
  { now rewrite Nat.eqb_refl. } { intros u Nu. destruct (Nat.eqb_spec u t); [contradiction|auto]. }
  destruct (IH _ _ kept S2) as (g' & kept' & E' & Pl' & O'); [now rewrite Nat.eqb_refl| |].
  { intros x b K. rewrite A2 in K. destruct (Nat.eqb_spec x v); [contradiction|]. apply (Permutation_in _ (Ap1 x)) in K. apply in_map_iff in K. destruct K as (b0 & <- & K).
    rewrite P2, P1. unfold subst_name. destruct (b0 =? v); [apply (Pl v); rewrite Av; now left|exact (Pl x b0 K)]. }
  exists g', kept'. split; auto. split; auto. intros x. rewrite O', O2. apply O1.
Qed.

Lemma copies_all_total : forall l g ops bl, settled g ops -> (forall t, bops bl t = ops t) -> (forall t, In t l -> t < length bl) -> placed g ->
  exists g' bl', mfold useless_step l (g, bl) = Ok (g', bl') /\ placed g' /\ (forall x, op_of g' x = op_of g x).
Proof.
  induction l as [|t l IH]; intros g ops bl S Eb Hl Pl; cbn [mfold]; [eauto|]. unfold useless_step at 1. unfold eliminate_needless_copies. cbn [fst snd].
  destruct (copies_block_total t (bops bl t) g ops [] S ltac:(now rewrite Eb) Pl) as (g1 & k1 & E1 & Pl1 & O1). rewrite E1. cbn [bind fst snd].
  destruct (copies_block A Q g0 r opts down up n e t (bops bl t) g ops [] g1 k1 S) as (ops1 & S1 & X1 & X2 & X3 & X4); [now rewrite Eb|auto|].
  assert (Lt : t < length bl) by (apply Hl; now left).
  assert (BN : forall u, nth_block (update bl t (with_ops (fun _ => k1))) u = if u =? t then with_ops (fun _ => k1) (nth_block bl u) else nth_block bl u) by (intros u; now apply update_nth).
  destruct (IH g1 ops1 (update bl t (with_ops (fun _ => k1))) S1) as (g' & bl' & E' & Pl' & O'); auto.
  { intros u. rewrite BN. destruct (Nat.eqb_spec u t) as [->|Nu]; [cbn; auto|]. rewrite X2 by auto. apply Eb. }
  { intros u Hu. rewrite update_length. apply Hl. now right. }
  exists g', bl'. split; auto. split; auto. intros x. now rewrite O'.
Qed.
End CopiesTotal.

Lemma one_entry bl e : e < length bl -> banc bl e = [] -> (forall t, t < length bl -> banc bl t = [] -> t = e) ->
  length (filter (fun x => match b_anc x with [] => true | _ => false end) bl) = 1.
Proof.
  intros Le Ee U. destruct (nth_split bl (mkb [] [] []) Le) as (l1 & l2 & El & L1). fold (nth_block bl e) in El.
  assert (N : forall l (P : forall x, In x l -> b_anc x <> []), filter (fun x : cblock => match b_anc x with [] => true | _ => false end) l = []).
  { induction l as [|x l IH]; intros P; cbn; auto. destruct (b_anc x) eqn:Ex; [destruct (P x (or_introl eq_refl) Ex)|]. apply IH. intros y Hy. apply P. now right. }
  assert (Z : forall t, t < length bl -> t <> e -> b_anc (nth t bl (mkb [] [] [])) <> []) by (intros t Lt Nt K; apply Nt, U; auto).
  rewrite El at 1. rewrite filter_app. cbn [filter]. rewrite Ee. rewrite (N l1), (N l2); [reflexivity| |].
  - intros x Hx. destruct (In_nth _ _ (mkb [] [] []) Hx) as (i & Li & <-). specialize (Z (length l1 + S i)). rewrite El, app_length in Z. rewrite app_nth2_plus in Z. cbn [length nth] in Z. apply Z; lia.
  - intros x Hx. destruct (In_nth _ _ (mkb [] [] []) Hx) as (i & Li & <-). specialize (Z i). rewrite El, app_length, app_nth1 in Z by auto. apply Z; cbn [length]; lia.
Qed.

Section Convert.
Variables (A : algebra) (Q : selecting A) (T : typing) (g0 : graph) (ops0 : list name) (r0 : name -> D A).
Hypothesis P0 : program T g0 0 ops0.
Hypothesis C0 : consistent r0 g0 ops0.
Hypothesis H0 : outputs_ok g0 ops0.
Hypothesis L0 : no_dead g0 ops0.
Notation N0 := (g_next g0).
Variable ct : bool.
Definition start : cstate := mks g0 [mkb [] [] []] [].

Lemma convert_total fuel : length (saves g0 2 ++ saves g0 1) + S (phi g0 start) < fuel ->
  exists c, convert fuel ct g0 = Ok c /\ (ct = true -> forall v, parent (c_vals c) v <> 0 -> op_of (c_vals c) v <> OCond).
Proof.
  intros Lf. unfold convert. cbn [create_block s_blocks s_g s_visited length app]. fold start. set (done := saves g0 2 ++ saves g0 1) in *.
  assert (Hd : forall v, In v done -> v < N0 /\ exists u k, op_of g0 v = OSave u k /\ u <> 0).
  { intros v K. unfold done in K. rewrite in_app_iff, !saves_in in K. destruct K as [(L & k & K)|(L & k & K)]; split; auto; eexists; eexists; split; eauto; lia. }
  pose proof (start_inv A Q T g0 ops0 r0 P0 H0 done) as I0. fold start in I0.
  assert (O1 := okset1 g0 ops0 done). assert (O2 := okset2 T g0 ops0 P0 H0 done).
  assert (Oq : forall v, In v done -> okset g0 ops0 done v).
  { intros v K. destruct (Hd v K) as (L & u & k & Ek & _). split; auto. apply (proj2 H0 v u k L Ek). }
  assert (NoC : forall v u k, v < N0 -> op_of g0 v = OSave u k -> cons_of g0 v = []).
  { intros v u k L Ek. destruct (cons_of g0 v) as [|x q] eqn:Ec; auto. exfalso. assert (In x (cons_of g0 v)) as Z by (rewrite Ec; now left).
    apply (def_use_in _ (bo_def_use g0 0 ops0 (proj1 P0))) in Z. destruct (proj2 H0 v u k L Ek) as (_ & _ & W). exact (W x Z). }
  assert (Hp : forall v t, op_of (s_g start) v = OPhi -> parent (s_g start) v = S t -> t <> 0) by (cbn [start s_g]; intros v t _ P; rewrite (proj1 H0) in P; discriminate).
  destruct (process_total A Q T g0 ops0 r0 P0 C0 (okset g0 ops0 done) O1 O2 ct [] fuel start done 0 [] r0 0 [] I0) as (st1 & e1 & later & E1 & G1 & _ & Co1 & Ns1 & _ & De & _); auto.
  { intros x []. }
  { intros v K. destruct (Hd v K) as (L & u & k & Ek & _). split; auto. unfold all_consumers_visited. cbn [start s_g]. now rewrite (NoC v u k L Ek). }
  { intros x []. }
  { intros v (_ & _ & X3 & X4). unfold all_consumers_visited in X4. cbn [start s_g] in X3, X4. destruct (cons_of g0 v); [contradiction|discriminate X4]. }
  { split; [|split]; cbn [start s_g].
    - intros _ v P. rewrite (proj1 H0) in P. contradiction.
    - intros a c Ha _ Lc. exfalso. destruct (operand_in T g0 ops0 P0 c a Ha) as [Ic _]. apply (bo_fresh g0 0 ops0 (proj1 P0)) in Ic. lia.
    - eauto. }
  { intros a []. } { cbn [length]. lia. }
  rewrite (De eq_refl) in *. rewrite E1. cbn [bind nothing_deferred]. cbn [app] in Co1.
  destruct (process_inv A Q T g0 ops0 r0 P0 C0 (okset g0 ops0 done) O1 O2 ct [] fuel _ done 0 [] st1 e1 [] r0 0 E1 I0) as (r1 & e1' & I1 & F1 & _ & Ke & _ & W1 & S1); auto.
  { intros x []. }
  rewrite <- Ke in I1 by auto. clear Ke e1'.
  assert (HL : forall v, In v (saves g0 0) -> In v ops0 /\ ~ In v done /\ exists k, op_of g0 v = OSave 0 k).
  { intros v K. apply saves_in in K. destruct K as (L & k & Ek). split; [apply (proj2 H0 v 0 k L Ek)|]. split; [|eauto].
    intros Z. destruct (Hd v Z) as (_ & u & k' & Ek' & Nu). congruence. }
  destruct (optionals_total A Q T g0 ops0 r0 P0 C0 H0 ct fuel (saves g0 0) done r1 e1 [] st1 (saves_nodup g0 0)) as (st2 & e2 & E2 & Co2 & Ns2 & _); auto.
  { apply phi_grows in G1. lia. }
  rewrite E2. cbn [bind].
  destruct (optionals_inv A Q T g0 ops0 r0 P0 C0 H0 ct fuel (saves g0 0) done r1 e1 [] st1 st2 e2 (saves_nodup g0 0)) as (r2 & opts & I2 & Fr & _ & Sf & Hs & Hb); auto.
  { intros v K. destruct (HL v K) as (X & Y & k & Ek). rewrite Ek. auto. }
  assert (E3 : process fuel ct st2 [] e2 [] = Ok (st2, e2, [])) by (destruct fuel; [lia|reflexivity]).
  rewrite E3. cbn [bind nothing_deferred].
  pose proof (c_shape _ _ _ _ _ _ _ _ _ (i_core _ _ _ _ _ _ _ _ _ I2)) as Sh2.
  rewrite (one_entry (s_blocks st2) e2 (sh_entry _ _ _ _ Sh2) (sh_root _ _ _ _ Sh2)); [|intros t Lt K; exact (root_entry _ _ _ _ t Sh2 Lt K)].
  cbn [Nat.eqb].
  assert (Rq : forall v u k, v < N0 -> op_of g0 v = OSave u k -> u <> 0 -> parent (s_g st2) v = 1).
  { intros v u k L Ek Nu. assert (Kd : In v done).
    { unfold done. rewrite in_app_iff, !saves_in. destruct (proj2 H0 v u k L Ek) as (_ & Lu & _). destruct u as [|[|[|u]]]; try lia; [right|left]; eauto. }
    assert (parent (s_g st1) v = 1) by (apply S1; auto; cbn [start s_g]; [now rewrite Ek|now apply (NoC v u k)|apply (proj1 H0)]). rewrite Fr; congruence. }
  assert (Op : forall v k, v < N0 -> op_of g0 v = OSave 0 k -> exists B, In (B, k) opts /\ parent (s_g st2) v = S B).
  { intros v k L Ek. destruct (Hs v) as (B & key & Z1 & Z2 & Z3); [apply saves_in; eauto|]. assert (key = k) by congruence. subst. eauto. }
  assert (I3 : inv A Q g0 r0 (fun v => In v ops0) r2 e2 opts st2) by (apply (inv_mono A Q g0 r0 (okset g0 ops0 (saves g0 0 ++ done))); auto; intros x [X _]; auto).
  assert (Mv : forall v, In v ops0 -> parent (s_g st2) v <> 0).
  { apply (all_moved A Q T g0 ops0 r0 P0 ct r2 e2 opts st2 (fun v => In v ops0)); auto. intros v u k L Ek. destruct u; [destruct (Op v k L Ek) as (B & _ & ->); discriminate|].
    rewrite (Rq v (S u) k L Ek); discriminate. }
  assert (Pl : placed (s_g st2)).
  { intros v a Ha. destruct (Nat.lt_ge_cases a N0) as [L|L].
    - destruct (i_rd _ _ _ _ _ _ _ _ _ I3 a v Ha L) as (c0 & K). apply Mv. now apply (operand_in T g0 ops0 P0 c0 a).
    - pose proof (cg_args _ (i_closed _ _ _ _ _ _ _ _ _ I3) v a Ha) as La. apply (i_new _ _ _ _ _ _ _ _ _ I3 a (conj L La)). }
  assert (St : settled A Q g0 r2 opts (fun t => bdesc (s_blocks st2) t) (fun t => banc (s_blocks st2) t) (length (s_blocks st2)) e2 (s_g st2) (fun t => bops (s_blocks st2) t)).
  { apply (inv_settled A Q T g0 ops0 r0 P0 H0 r2 e2 opts st2); auto.
    - intros v k L Ek One. assert (S2 : exists q, done = v :: q).
      { unfold done. assert (K : In v (saves g0 2)) by (apply saves_in; eauto). destruct (saves g0 2) as [|w q] eqn:Es; [contradiction|].
        assert (In w (saves g0 2)) as Kw by (rewrite Es; now left). apply saves_in in Kw. destruct Kw as (Lw & k' & Ew). rewrite (One w k' Lw Ew). cbn. eauto. }
      destruct S2 as (q & Eq).
      destruct (W1 v q Eq) as (l & El); cbn [start s_g s_blocks]; [now rewrite Ek|now apply (NoC v 2 k)|apply (proj1 H0)|reflexivity|].
      destruct (Sf 0) as (l' & El'). { destruct (s_blocks st1) eqn:Eb; [|cbn; lia]. destruct l; discriminate El. }
      exists (l' ++ l). rewrite El', El. apply app_assoc.
    - intros t K. destruct (i_one _ _ _ _ _ _ _ _ _ I2 t K) as [|(key & Z)]; auto. destruct (Hb t key Z) as [[]|(v & V1 & V2 & _)].
      apply (i_par _ _ _ _ _ _ _ _ _ I2) in V2. intros X. rewrite X in V2. contradiction.
    - intros B key Z. destruct (Hb B key Z) as [[]|(v & V1 & _ & V3)]. exists v. apply saves_in in V1. tauto. }
  unfold eliminate_useless_copies.
  destruct (copies_all_total A Q g0 r2 opts _ _ _ e2 (seq 0 (length (s_blocks st2))) (s_g st2) _ (s_blocks st2) St) as (g & bl & E4 & Pl4 & O4); auto.
  { intros t K. apply in_seq in K. lia. }
  rewrite E4. cbn [bind fst snd].
  destruct (copies_all A Q g0 r2 opts _ _ _ e2 (seq 0 (length (s_blocks st2))) (s_g st2) _ (s_blocks st2) g bl St) as (ops' & S' & X1 & X2 & X3 & X4 & X5 & X6); auto.
  { intros t K. apply in_seq in K. lia. }
  assert (E5 : discard_unused g = Ok tt).
  { unfold discard_unused. replace (forallb _ _) with true; auto. symmetry. apply forallb_forall. intros v _.
    destruct (cons_of g v) as [|c q] eqn:Ec; [apply orb_true_r|]. assert (K : In c (cons_of g v)) by (rewrite Ec; now left).
    apply (def_use_in _ (c_use _ _ _ _ _ _ _ _ _ (s_core _ _ _ _ _ _ _ _ _ _ _ S'))) in K. specialize (Pl4 c v K). destruct (Nat.eqb_spec (parent g v) 0); [contradiction|reflexivity]. }
  rewrite E5. cbn [bind]. eexists. split; [reflexivity|]. cbn [c_vals]. intros Ect v. rewrite X5, O4. apply (proj1 Ns2 Ect).
Qed.
End Convert.

(** More steps do not change a result. *)
Lemma loop_more ct : forall f f' st q cs ds b r, f <= f' -> process_non_conditionals f ct st q cs ds b = Ok r -> process_non_conditionals f' ct st q cs ds b = Ok r.
Proof.
  induction f as [|f IH]; intros f' st q cs ds b r L E; cbn [process_non_conditionals] in E; [discriminate|]. destruct f' as [|f']; [lia|]. cbn [process_non_conditionals].
  destruct q as [|top q]; auto. destruct (is_visited st top); [apply IH; auto; lia|]. destruct (negb (all_consumers_visited st top)); auto.
  destruct (all_of (consumer_below st b) (cons_of (s_g st) top)) as [k| | | |]; cbn [bind] in *; try discriminate. destruct (negb k); [apply IH; auto; lia|].
  destruct (is_cond (op_of (s_g st) top) && ct); [apply IH; auto; lia|]. destruct (place st top b) as [st'| | | |]; cbn [bind] in *; try discriminate. apply IH; auto; lia.
Qed.
Lemma process_more ct : forall f f' st q o ds r, f <= f' -> process f ct st q o ds = Ok r -> process f' ct st q o ds = Ok r.
Proof.
  induction f as [|f IH]; intros f' st q o ds r L E; cbn [process] in E; [discriminate|]. destruct f' as [|f']; [lia|]. cbn [process].
  destruct (process_non_conditionals (S f) ct st q [] ds o) as [[[st1 cs] d1]| | | |] eqn:E1; cbn [bind] in E; try discriminate.
  rewrite (loop_more ct _ (S f') _ _ _ _ _ _ L E1). cbn [bind]. destruct cs as [|c0 cs]; auto.
  destruct (select_conditionals (s_g st1) (c0 :: cs)) as [[[cd gr] rest]| | | |]; cbn [bind] in *; try discriminate.
  destruct (create_block st1) as [st2 l]. destruct (create_block st2) as [st3 rt].
  destruct (mfold (group_step l rt o) gr (st3, [], [])) as [[[st4 ql] qr]| | | |]; cbn [bind] in *; try discriminate.
  destruct (insert_branch st4 l rt o cd (rev gr)) as [[st5 j]| | | |]; cbn [bind] in *; try discriminate.
  destruct (process f ct st5 ql l []) as [[[st6 b6] l6]| | | |] eqn:E6; cbn [bind] in E; try discriminate. rewrite (IH f' _ _ _ _ _ ltac:(lia) E6). cbn [bind].
  destruct (process f ct st6 qr rt l6) as [[[st7 b7] l7]| | | |] eqn:E7; cbn [bind] in E; try discriminate. rewrite (IH f' _ _ _ _ _ ltac:(lia) E7). cbn [bind].
  apply IH; auto. lia.
Qed.
Lemma optional_more ct f f' s v r : f <= f' -> optional_step f ct s v = Ok r -> optional_step f' ct s v = Ok r.
Proof.
  intros L E. unfold optional_step in *. destruct s as [st e]. destruct (op_of (s_g st) v) as [| | | | | | | | | | | | | | | |u key]; try discriminate. destruct u; [|discriminate].
  destruct (create_block st) as [st1 l]. destruct (add_descendant (s_blocks st1) l e) as [bl| | | |]; cbn [bind] in *; try discriminate.
  destruct (create_block (mks (s_g st1) bl (s_visited st1))) as [st2 j].
  destruct (create_operation st2 j (OOutReq key) TVoid []) as [c| | | |]; cbn [bind] in *; try discriminate.
  destruct (create_operation (fst c) j OJump TVoid [snd c]) as [w| | | |]; cbn [bind] in *; try discriminate.
  destruct (add_descendant (s_blocks (fst w)) j l) as [bl1| | | |]; cbn [bind] in *; try discriminate.
  destruct (add_descendant bl1 j e) as [bl2| | | |]; cbn [bind] in *; try discriminate.
  destruct (process f ct _ [v] l []) as [[[st3 b3] l3]| | | |] eqn:E3; cbn [bind] in E; try discriminate. rewrite (process_more ct f f' _ _ _ _ _ L E3). cbn [bind].
  destruct (process f ct st3 l3 j []) as [[[st4 b4] l4]| | | |] eqn:E4; cbn [bind] in E; try discriminate. rewrite (process_more ct f f' _ _ _ _ _ L E4). exact E.
Qed.
Lemma optionals_more ct f f' : f <= f' -> forall l s r, mfold (optional_step f ct) l s = Ok r -> mfold (optional_step f' ct) l s = Ok r.
Proof.
  intros L. induction l as [|v l IH]; intros s r E; cbn [mfold] in *; auto. destruct (optional_step f ct s v) as [s1| | | |] eqn:E1; cbn [bind] in E; try discriminate.
  rewrite (optional_more ct f f' _ _ _ L E1). cbn [bind]. auto.
Qed.
Lemma convert_more ct f f' g c : f <= f' -> convert f ct g = Ok c -> convert f' ct g = Ok c.
Proof.
  intros L E. unfold convert in *. destruct (create_block (mks g [] [])) as [st b].
  destruct (process f ct st _ b []) as [[[st1 n1] l1]| | | |] eqn:E1; cbn [bind] in E; try discriminate. rewrite (process_more ct f f' _ _ _ _ _ L E1). cbn [bind].
  destruct (nothing_deferred l1) as [[]| | | |]; cbn [bind] in *; try discriminate.
  destruct (mfold (optional_step f ct) (saves g 0) (st1, n1)) as [[st2 n2]| | | |] eqn:E2; cbn [bind] in E; try discriminate. rewrite (optionals_more ct f f' L _ _ _ E2). cbn [bind].
  destruct (process f ct st2 [] n2 []) as [[[st3 n3] l3]| | | |] eqn:E3; cbn [bind] in E; try discriminate. rewrite (process_more ct f f' _ _ _ _ _ L E3). exact E.
Qed.
