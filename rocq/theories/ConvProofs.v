(** The conversion as a whole. *)
From Coq Require Import String List Arith ZArith Bool Lia Permutation.
From Verif Require Import Outcome NumProofs IrModel IrSpec IrProofs CfgModel CfgSpec MergeProofs CountProofs ConvModel ConvSpec ConvShape ConvBlocks ConvGroup ConvInv ConvConvert ConvCopies ConvRun.
Import ListNotations.
Open Scope outcome_scope.
Open Scope nat_scope.

Lemma settled_ext A Q g0 r opts down up n e g ops down' up' ops' :
  (forall t, ops' t = ops t) -> (forall t, down' t = down t) -> (forall t, up' t = up t) ->
  settled A Q g0 r opts down up n e g ops -> settled A Q g0 r opts down' up' n e g ops'.
Proof.
  intros E1 E2 E3 [C Ar Op On Re Ol Lt Ctl Phi Jr Old Ret Kp Ky]. constructor; auto.
  - now apply (core_ext A Q r g ops down up).
  - intros v t. rewrite E1. apply Ar.
  - intros B key K. destruct (Op B key K) as (J & l & jv & cq & X1 & X2 & X3 & X4 & X5 & X6 & X7). exists J, l, jv, cq. rewrite E1, E2.
    split; auto. split; auto. split; auto. split; auto. split; auto. split; auto. now apply (splits_ext down up).
  - intros t. rewrite E1, E2. apply On.
  - intros v u k L E. destruct (Re v u k L E) as (X & t & Y). split; auto. exists t. now rewrite E1.
  - intros v t u k. rewrite E1. apply Ol.
  - intros v w X Y. destruct (Phi v w X Y) as (t & K). exists t. now rewrite E1.
  - intros x J key L X Y. destruct (Jr x J key L X Y) as (l & q & B & Z). exists l, q, B. now rewrite E2, E3.
  - intros v k. rewrite E1. apply Ret.
  - intros v t. rewrite E1. apply Kp.
Qed.

Section Whole.
Variables (A : algebra) (Q : selecting A) (T : typing) (g0 : graph) (ops0 : list name) (r0 : name -> D A).
Hypothesis P0 : program T g0 0 ops0.
Hypothesis C0 : consistent r0 g0 ops0.
Hypothesis H0 : outputs_ok g0 ops0.
Notation N0 := (g_next g0).

Lemma inv_settled r e opts st : inv A Q g0 r0 (fun v => In v ops0) r e opts st ->
  (forall v u k, v < N0 -> op_of g0 v = OSave u k -> u <> 0 -> parent (s_g st) v = 1) ->
  (forall v k, v < N0 -> op_of g0 v = OSave 0 k -> exists B, In (B, k) opts /\ parent (s_g st) v = S B) ->
  (forall v k, v < N0 -> op_of g0 v = OSave 2 k -> (forall w k', w < N0 -> op_of g0 w = OSave 2 k' -> w = v) -> exists l, bops (s_blocks st) 0 = l ++ [v]) ->
  (forall t, length (bdesc (s_blocks st) t) = 1 -> bops (s_blocks st) t <> []) ->
  (forall B key, In (B, key) opts -> exists v, v < N0 /\ op_of g0 v = OSave 0 key) ->
  settled A Q g0 r opts (fun t => bdesc (s_blocks st) t) (fun t => banc (s_blocks st) t) (length (s_blocks st)) e (s_g st) (fun t => bops (s_blocks st) t).
Proof.
  intros I Rq Op Rt One Ky. pose proof (i_core _ _ _ _ _ _ _ _ _ I) as CO.
  constructor; auto.
  - intros v t K. apply (i_ar _ _ _ _ _ _ _ _ _ I). rewrite (c_own _ _ _ _ _ _ _ _ _ CO v t K). discriminate.
  - intros B key K. apply (i_opt _ _ _ _ _ _ _ _ _ I B key K).
  - intros v u k L Ev. assert (Np : parent (s_g st) v <> 0).
    { destruct u; [destruct (Op v k L Ev) as (B & _ & ->); discriminate|]. rewrite (Rq v (S u) k L Ev); discriminate. }
    split; [destruct (i_op _ _ _ _ _ _ _ _ _ I v L) as [[X _]|(_ & X & _)]; congruence|].
    destruct u as [|u]; [destruct (Op v k L Ev) as (B & X & Y)|pose proof (Rq v (S u) k L Ev ltac:(discriminate)) as Y]; apply (i_par _ _ _ _ _ _ _ _ _ I) in Y.
    + exists B. split; auto. split; auto. congruence.
    + exists 0. split; auto. split; [auto|discriminate].
  - intros v t u k K Ev. pose proof (c_own _ _ _ _ _ _ _ _ _ CO v t K) as Pv.
    destruct (Nat.lt_ge_cases v N0) as [L|G].
    + split; auto. destruct (i_op _ _ _ _ _ _ _ _ _ I v L) as [[X _]|(X & _)]; congruence.
    + exfalso. destruct (Nat.lt_ge_cases v (g_next (s_g st))) as [L|G2].
      * destruct (i_new _ _ _ _ _ _ _ _ _ I v (conj G L)) as [_ X]. rewrite Ev in X. exact X.
      * destruct (cg_fresh _ (i_closed _ _ _ _ _ _ _ _ _ I) v G2). congruence.
  - intros v a. apply (cg_args _ (i_closed _ _ _ _ _ _ _ _ _ I)).
  - intros a x Ha. destruct (i_ctl _ _ _ _ _ _ _ _ _ I a x Ha) as [X Y]. split; auto. split; auto. intros u k Ek. destruct (Nat.lt_ge_cases a N0) as [L|G].
    + destruct (i_rd _ _ _ _ _ _ _ _ _ I a x Ha L) as (x0 & Z). destruct (i_op _ _ _ _ _ _ _ _ _ I a L) as [[W _]|(W & _)]; [|congruence].
      rewrite W in Ek. destruct (proj2 H0 a u k L Ek) as (_ & _ & V). exact (V x0 Z).
    + pose proof (cg_args _ (i_closed _ _ _ _ _ _ _ _ _ I) x a Ha) as L. destruct (i_new _ _ _ _ _ _ _ _ _ I a (conj G L)) as [_ V]. rewrite Ek in V. exact V.
  - intros v w Ew Hv. destruct (parent (s_g st) w) as [|t] eqn:Pw; [|exists t; apply (i_par _ _ _ _ _ _ _ _ _ I w t Pw)]. exfalso.
    destruct (Nat.lt_ge_cases w N0) as [L|G].
    + destruct (i_op _ _ _ _ _ _ _ _ _ I w L) as [[X Y]|(_ & _ & X)]; [|contradiction]. rewrite X in Ew. rewrite Y in Hv.
      destruct (in_dec Nat.eq_dec w ops0) as [K|K]; [|rewrite (bo_dead g0 0 ops0 (proj1 P0) w K) in Hv; contradiction]. exact (proj1 (bo_plain g0 0 ops0 (proj1 P0) w K) Ew).
    + destruct (Nat.lt_ge_cases w (g_next (s_g st))) as [L|G2]; [destruct (i_new _ _ _ _ _ _ _ _ _ I w (conj G L)); contradiction|].
      destruct (cg_fresh _ (i_closed _ _ _ _ _ _ _ _ _ I) w G2) as [X _]. rewrite X in Hv. contradiction.
  - apply (i_req _ _ _ _ _ _ _ _ _ I).
  - intros v w key K L Ev. split; [destruct (i_op _ _ _ _ _ _ _ _ _ I v L) as [[X _]|(X & _)]; congruence|apply (i_rd _ _ _ _ _ _ _ _ _ I v w K L)].
  - intros v t K. pose proof (c_own _ _ _ _ _ _ _ _ _ CO v t K) as Pv. destruct (Nat.lt_ge_cases v N0) as [L|G].
    + destruct (i_op _ _ _ _ _ _ _ _ _ I v L) as [[X Y]|(X & _)]; [left; split; auto; split; congruence|right; rewrite X; exact Logic.I].
    + right. destruct (Nat.lt_ge_cases v (g_next (s_g st))) as [L|G2]; [apply (i_new _ _ _ _ _ _ _ _ _ I v (conj G L))|].
      destruct (cg_fresh _ (i_closed _ _ _ _ _ _ _ _ _ I) v G2). congruence.
Qed.

Lemma converted fuel ct c : convert fuel ct g0 = Ok c -> exists r e opts,
  settled A Q g0 r opts (desc c) (anc c) (length (c_blocks c)) e (c_vals c) (ops_of c) /\
  (forall v a, In a (args (c_vals c) v) -> parent (c_vals c) a <> 0) /\ (forall v, v < N0 -> r v = r0 v) /\
  (forall v t, In v (ops_of c t) -> v < N0 -> In v ops0).
Proof.
  intros E. destruct (convert_inv A Q T g0 ops0 r0 P0 C0 H0 fuel ct c E) as (r & e & opts & st & g & bl & I & E1 & E2 & -> & Rq & Op & Rt & One & Ky).
  pose proof (i_core _ _ _ _ _ _ _ _ _ I) as CO.
  pose proof (inv_settled r e opts st I Rq Op Rt One Ky) as S.
  unfold eliminate_useless_copies in E1.
  destruct (copies_all A Q g0 r opts _ _ _ e (seq 0 (length (s_blocks st))) (s_g st) _ (s_blocks st) g bl S) as (ops' & S' & X1 & X2 & X3 & X4 & X5 & X6); auto.
  { intros t K. apply in_seq in K. lia. }
  exists r, e, opts. cbn [c_vals c_blocks]. split; [|split; [|split]].
  - rewrite X4. apply (settled_ext A Q g0 r opts _ _ _ e g ops' _ _ _ X1 X2 X3 S').
  - intros v a Ha. pose proof (s_lt _ _ _ _ _ _ _ _ _ _ _ S' v a Ha) as La. unfold discard_unused in E2.
    destruct (forallb _ _) eqn:F; [|discriminate]. rewrite forallb_forall in F. specialize (F a ltac:(apply in_seq; lia)).
    apply orb_true_iff in F. destruct F as [F|F]; [intros K; rewrite K in F; discriminate|].
    apply (def_use_in _ (c_use _ _ _ _ _ _ _ _ _ (s_core _ _ _ _ _ _ _ _ _ _ _ S'))) in Ha. destruct (cons_of g a); [contradiction|discriminate].
  - apply (i_r _ _ _ _ _ _ _ _ _ I).
  - intros v t K L. apply (i_src _ _ _ _ _ _ _ _ _ I v L). rewrite <- X5. rewrite (c_own _ _ _ _ _ _ _ _ _ (s_core _ _ _ _ _ _ _ _ _ _ _ S') v t); [discriminate|].
    rewrite <- X1. exact K.
Qed.

Lemma first_is c e up : (forall t, up t = anc c t) -> e < length (c_blocks c) -> up e = [] -> (forall t, t < length (c_blocks c) -> t <> e -> up t <> []) -> first_block c = Ok e.
Proof.
  intros Eu Le Re Ot. unfold first_block.
  assert (K : forall l k, (forall t, t < length l -> nth t l (mkb [] [] []) = nth (k + t) (c_blocks c) (mkb [] [] [])) -> k <= e -> k + length l = length (c_blocks c) -> first_without l k = Ok e).
  { induction l as [|x l IH]; intros k Hl Lk Ll; cbn in *; [lia|].
    pose proof (Hl 0 ltac:(lia)) as X. cbn in X. rewrite Nat.add_0_r in X. assert (Xa : b_anc x = anc c k) by (unfold anc, block; rewrite <- X; auto).
    destruct (Nat.eq_dec k e) as [->|N]; [rewrite Xa, <- Eu, Re; auto|].
    destruct (b_anc x) eqn:Ex; [exfalso; apply (Ot k); [lia|auto|rewrite Eu; auto]|].
    apply IH; [|lia|lia]. intros t Lt. rewrite (Hl (S t)) by lia. f_equal. lia. }
  apply K; auto; lia.
Qed.

Lemma entry_first fuel ct c : convert fuel ct g0 = Ok c -> forall r e opts, settled A Q g0 r opts (desc c) (anc c) (length (c_blocks c)) e (c_vals c) (ops_of c) -> first_block c = Ok e.
Proof.
  intros _ r e opts S. pose proof (c_shape _ _ _ _ _ _ _ _ _ (s_core _ _ _ _ _ _ _ _ _ _ _ S)) as Sh.
  apply (first_is c e (anc c)); auto; [apply (sh_entry _ _ _ _ Sh)|apply (sh_root _ _ _ _ Sh)|].
  intros t Lt Nt Z. destruct (sh_region _ _ _ _ Sh) as (bs & R & Ha). apply (region_reached_edge _ _ _ _ R t); auto; [now apply Ha|].
  intros a K. apply (sh_edge _ _ _ _ Sh) in K. rewrite Z in K. contradiction.
Qed.

Lemma flat_map_filter_perm {B C} (f : B -> list C) (l : list B) : flat_map f l = flat_map f (filter (fun x => match f x with [] => false | _ => true end) l).
Proof. induction l as [|x t IH]; cbn; auto. destruct (f x) eqn:E; cbn; rewrite ?E, IH; auto. Qed.
Lemma filter_flat_map {B C} (f : B -> list C) (w : C -> bool) l : filter w (flat_map f l) = flat_map (fun x => filter w (f x)) l.
Proof. induction l as [|x t IH]; cbn; auto. now rewrite filter_app, IH. Qed.

Lemma convert_runs fuel ct c e0 : convert fuel ct g0 = Ok c -> (forall v, In v ops0 -> e0 v = Some (r0 v)) ->
  exists b k E outs, first_block c = Ok b /\ run A Q c k None b (start A) = Some (E, outs) /\ Permutation outs (filter (wanted Q) (outputs A g0 e0 ops0)).
Proof.
  intros E H. destruct (converted fuel ct c E) as (r & e & opts & S & Pl & Er & _).
  destruct (run_total A Q g0 r opts c _ e S Pl) as (k & p & E' & Up & Ch & ND & Dn & Rn).
  exists e, k, E', (flat_map (fun t => flat_map (hand A r c) (ops_of c t)) (rev p)). split; [apply (entry_first fuel ct c E r e opts S)|]. split; auto.
  pose proof (s_core _ _ _ _ _ _ _ _ _ _ _ S) as CO.
  set (is := fun x => match op_of (c_vals c) x with OSave _ _ => true | _ => false end).
  set (L1 := filter is (flat_map (ops_of c) (rev p))).
  set (want := fun x => match op_of g0 x with OSave 0 k => truth Q (sem A (OOutReq k) []) | OSave _ _ => true | _ => false end).
  assert (X1 : flat_map (fun t => flat_map (hand A r c) (ops_of c t)) (rev p) = flat_map (hand A r c) L1).
  { unfold L1. generalize (rev p) as q. induction q as [|t q IH]; cbn; auto. rewrite filter_app, flat_map_app, <- IH. f_equal.
    rewrite (flat_map_filter_perm (hand A r c)). f_equal. apply filter_ext. intros x. unfold hand, handed, is. destruct (op_of (c_vals c) x); auto. }
  rewrite X1. clear X1.
  assert (X2 : filter (wanted Q) (outputs A g0 e0 ops0) = flat_map (fun x => match op_of g0 x with OSave u k => [(u, k, r0 x)] | _ => [] end) (filter want ops0)).
  { unfold outputs. rewrite filter_flat_map. assert (Z : forall l, incl l ops0 -> flat_map (fun x => filter (wanted Q) (match op_of g0 x, args g0 x with OSave u k, [a] => match e0 a with Some d => [(u, k, d)] | None => [] end | _, _ => [] end)) l =
      flat_map (fun x => match op_of g0 x with OSave u k => [(u, k, r0 x)] | _ => [] end) (filter want l)).
    { induction l as [|x l IH]; intros Hi; cbn; auto. rewrite IH by (intros y Hy; apply Hi; now right). assert (Kx : In x ops0) by (apply Hi; now left).
      unfold want at 2. destruct (op_of g0 x) as [| | | | | | | | | | | | | | | |u key] eqn:Ox; auto.
      pose proof (bo_arity g0 0 ops0 (proj1 P0) x Kx) as Arx. rewrite Ox in Arx. destruct (args g0 x) as [|a [|b q]] eqn:Ax; try discriminate.
      assert (Ka : In a ops0) by (apply (before_in ops0 a x); apply (proj2 P0); auto; rewrite Ax; now left).
      rewrite (H a Ka). pose proof (C0 x Kx) as Vx. rewrite Ox, Ax in Vx. cbn in Vx. rewrite sem_save in Vx.
      destruct u; cbn [filter wanted]; [destruct (truth Q (sem A (OOutReq key) [])); cbn; rewrite ?Ox, ?Vx; auto|cbn; rewrite Ox, Vx; auto]. }
    apply Z. apply incl_refl. }
  rewrite X2. clear X2.
  assert (In1 : forall x, In x L1 <-> In x (filter want ops0)).
  { intros x. unfold L1. rewrite !filter_In, in_flat_map. split.
    - intros [(t & Ht & Kx) Sx]. apply in_rev in Ht. unfold is in Sx. destruct (op_of (c_vals c) x) as [| | | | | | | | | | | | | | | |u key] eqn:Ox; try discriminate.
      destruct (s_only _ _ _ _ _ _ _ _ _ _ _ S x t u key Kx Ox) as [Lx O0]. split; [apply (proj2 H0 x u key Lx O0)|]. unfold want. rewrite O0. destruct u; auto.
      destruct (s_req _ _ _ _ _ _ _ _ _ _ _ S x 0 key Lx O0) as (_ & t' & Kx' & _ & Ko). specialize (Ko eq_refl).
      assert (t' = t) by (pose proof (c_own _ _ _ _ _ _ _ _ _ CO x t Kx) as Z1; pose proof (c_own _ _ _ _ _ _ _ _ _ CO x t' Kx') as Z2; congruence). subst t'.
      destruct (s_opt _ _ _ _ _ _ _ _ _ _ _ S t key Ko) as (J & l & jv & cq & Y1 & Y2 & Y3 & Y4 & Y5 & Y6 & Y7).
      destruct (Y7 p Up) as (i & z & Li & Ez & V & Iff). pose proof (Ch z J l jv cq V Y1 Y2 Y3) as W.
      assert (i = if truth Q (r cq) then 0 else 1) by (apply (same_nth (desc c J) i _ z); auto; apply (sh_down _ _ _ _ (c_shape _ _ _ _ _ _ _ _ _ CO))).
      assert (Kj : In jv (ops_of c J)) by (rewrite Y2, in_app_iff; right; now left). assert (Nj : op_of (c_vals c) jv <> OPhi).
      { destruct (c_two _ _ _ _ _ _ _ _ _ CO J Y1) as (l' & jv' & cd' & Z1 & Z2 & Z3). rewrite Y2 in Z1. apply app_inj_tail in Z1. destruct Z1 as [_ <-]. congruence. }
      destruct (c_avail _ _ _ _ _ _ _ _ _ CO jv J cq J Kj Nj) as (_ & Kq & _); [rewrite Y3; now left|auto|].
      assert (Rq : r cq = sem A (OOutReq key) []) by (rewrite (c_val _ _ _ _ _ _ _ _ _ CO cq J Kq); [now rewrite Y4, Y5|congruence]). rewrite <- Rq.
      destruct (truth Q (r cq)); auto. apply Iff in Ht. congruence.
    - intros [Kx Sx]. unfold want in Sx. destruct (op_of g0 x) as [| | | | | | | | | | | | | | | |u key] eqn:Ox; try discriminate.
      assert (Lx : x < N0) by (apply (bo_fresh g0 0 ops0 (proj1 P0)); auto).
      destruct (s_req _ _ _ _ _ _ _ _ _ _ _ S x u key Lx Ox) as (O1 & t & Kt & Z0 & Zo). split; [|unfold is; now rewrite O1].
      exists t. split; auto. apply -> in_rev. destruct u as [|u].
      + specialize (Zo eq_refl). destruct (s_opt _ _ _ _ _ _ _ _ _ _ _ S t key Zo) as (J & l & jv & cq & Y1 & Y2 & Y3 & Y4 & Y5 & Y6 & Y7).
        destruct (Y7 p Up) as (i & z & Li & Ez & V & Iff). pose proof (Ch z J l jv cq V Y1 Y2 Y3) as W.
        assert (Ei : i = if truth Q (r cq) then 0 else 1) by (apply (same_nth (desc c J) i _ z); auto; apply (sh_down _ _ _ _ (c_shape _ _ _ _ _ _ _ _ _ CO))).
        assert (Kj : In jv (ops_of c J)) by (rewrite Y2, in_app_iff; right; now left). assert (Nj : op_of (c_vals c) jv <> OPhi).
        { destruct (c_two _ _ _ _ _ _ _ _ _ CO J Y1) as (l' & jv' & cd' & Z1 & Z2 & Z3). rewrite Y2 in Z1. apply app_inj_tail in Z1. destruct Z1 as [_ <-]. congruence. }
        destruct (c_avail _ _ _ _ _ _ _ _ _ CO jv J cq J Kj Nj) as (_ & Kq & _); [rewrite Y3; now left|auto|].
        assert (Rq : r cq = sem A (OOutReq key) []) by (rewrite (c_val _ _ _ _ _ _ _ _ _ CO cq J Kq); [now rewrite Y4, Y5|congruence]). rewrite Rq, Sx in Ei. apply Iff. auto.
      + rewrite Z0 by discriminate. destruct (upath_head _ _ _ Up) as (q & ->). now left. }
  assert (Eq : forall x, In x L1 -> hand A r c x = match op_of g0 x with OSave u k => [(u, k, r0 x)] | _ => [] end).
  { intros x Kx. unfold L1 in Kx. rewrite filter_In, in_flat_map in Kx. destruct Kx as [(t & Ht & Kx) Sx]. unfold is in Sx. unfold hand.
    destruct (op_of (c_vals c) x) as [| | | | | | | | | | | | | | | |u key] eqn:Ox; try discriminate. destruct (s_only _ _ _ _ _ _ _ _ _ _ _ S x t u key Kx Ox) as [Lx O0]. rewrite O0. cbn. now rewrite Er. }
  assert (N1 : NoDup L1).
  { unfold L1. apply NoDup_filter. assert (N : NoDup (rev p)) by now apply NoDup_rev. clear -N CO. revert N. generalize (rev p) as q. induction q as [|t q IH]; intros N; cbn; [constructor|]. inversion N as [|? ? Nt Nq]; subst. 
    specialize (IH Nq). assert (Nt' := c_nodup _ _ _ _ _ _ _ _ _ CO t). cbn beta in Nt'.
    assert (Dj : forall x, In x (ops_of c t) -> ~ In x (flat_map (ops_of c) q)).
    { intros x Kx Z. apply in_flat_map in Z. destruct Z as (u & Hu & Ku). pose proof (c_own _ _ _ _ _ _ _ _ _ CO x t Kx). pose proof (c_own _ _ _ _ _ _ _ _ _ CO x u Ku). assert (u = t) by congruence. now subst u. }
    revert Nt' Dj. generalize (ops_of c t) as l. induction l as [|y l IHl]; intros Nl Dj; cbn; auto. inversion Nl as [|? ? Ny Nl']; subst. constructor.
    - rewrite in_app_iff. intros [K|K]; [contradiction|]. apply (Dj y); [now left|auto].
    - apply IHl; auto. intros x Hx. apply Dj. now right. }
  assert (PM : Permutation L1 (filter want ops0)).
  { apply NoDup_Permutation; auto. apply NoDup_filter. apply (bo_nodup g0 0 ops0 (proj1 P0)). }
  apply Permutation_trans with (flat_map (fun x => match op_of g0 x with OSave u k => [(u, k, r0 x)] | _ => [] end) L1).
  - clear -Eq. assert (Z : forall l, incl l L1 -> flat_map (hand A r c) l = flat_map (fun x => match op_of g0 x with OSave u k => [(u, k, r0 x)] | _ => [] end) l).
    { induction l as [|x l IH]; intros Hi; cbn; auto. rewrite (Eq x), IH; auto; [intros y Hy; apply Hi; now right|apply Hi; now left]. }
    rewrite Z by apply incl_refl. reflexivity.
  - now apply Permutation_flat_map.
Qed.
End Whole.
