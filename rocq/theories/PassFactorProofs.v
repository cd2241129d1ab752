From Coq Require Import String List Arith NArith ZArith Bool Ring Ring_theory Permutation Sorted Lia.
From Verif Require Import Outcome RangesModel RangesSpec RangesProofs RangesProps IrModel IrSpec IrProofs IrPassProofs.
From Verif Require Import FactorModel FactorSpec FactorProofs PassModel PassProofs.
Import ListNotations.
Open Scope outcome_scope.
Open Scope nat_scope.

Lemma members_eq n t : n = 64 -> members t = filter (bit t) (seq 0 n).
Proof. now intros ->. Qed.
#[local] Opaque count members.

(** * Indices of variables *)
Lemma assign_spec l : forall acc, NoDup acc ->
  let idx := fold_left (fun idx a => if mem a idx then idx else idx ++ [a]) l acc in
  NoDup idx /\ forall x, In x idx <-> In x acc \/ In x l.
Proof.
  induction l as [|a l IH]; intros acc ND; cbn [fold_left].
  - split; [assumption|]. intros x. cbn. tauto.
  - destruct (mem a acc) eqn:E.
    + destruct (IH acc ND) as [H1 H2]. split; [assumption|]. intros x. rewrite H2. apply mem_in in E. cbn. split; [tauto|].
      intros [H|[<-|H]]; tauto.
    + assert (Na : ~ In a acc) by (intros H; apply mem_in in H; congruence).
      destruct (IH (acc ++ [a])) as [H1 H2].
      { apply (Permutation_NoDup (l := a :: acc)); [apply Permutation_cons_append|now constructor]. }
      split; [assumption|]. intros x. rewrite H2, in_app_iff. cbn. tauto.
Qed.
Lemma assign_nodup g muls : NoDup (assign_indices g muls).
Proof. unfold assign_indices. apply (assign_spec (flat_map (args g) muls) []). constructor. Qed.
Lemma assign_in g muls x : In x (assign_indices g muls) <-> exists m, In m muls /\ In x (args g m).
Proof.
  unfold assign_indices. destruct (assign_spec (flat_map (args g) muls) [] (NoDup_nil _)) as [_ H]. rewrite H, in_flat_map.
  cbn. tauto.
Qed.

Lemma index_of_in x idx : In x idx -> exists i, index_of x idx = Ok i /\ i < length idx /\ nth i idx 0 = x.
Proof.
  induction idx as [|y t IH]; intros H; [destruct H|]. cbn [index_of]. destruct (Nat.eqb_spec y x) as [->|N].
  - exists 0. cbn. repeat split; lia.
  - destruct H as [H|H]; [contradiction|]. destruct (IH H) as (i & -> & L & E). exists (S i). cbn. repeat split; [lia|assumption].
Qed.
Lemma index_of_nth idx i : NoDup idx -> i < length idx -> index_of (nth i idx 0) idx = Ok i.
Proof.
  intros ND L. destruct (index_of_in (nth i idx 0) idx) as (j & E & Lj & En); [now apply nth_In|].
  rewrite E. f_equal. apply (NoDup_nth idx 0); assumption.
Qed.

Lemma term_mask_gen idx : NoDup idx -> forall l m, incl l idx ->
  exists m', mfold (fun m a => let* i := index_of a idx in Ok (set_bit m i)) l m = Ok m' /\
    forall i, bit m' i = true <-> bit m i = true \/ (i < length idx /\ In (nth i idx 0) l).
Proof.
  intros ND. induction l as [|a l IH]; intros m I; cbn [mfold].
  - exists m. split; [reflexivity|]. intros i. cbn. tauto.
  - destruct (index_of_in a idx) as (k & E & L & En); [apply I; now left|]. rewrite E. cbn [bind].
    destruct (IH (set_bit m k)) as (m' & E' & H'); [intros x Hx; apply I; now right|].
    exists m'. split; [assumption|]. intros i. rewrite H', bit_set, Bool.orb_true_iff, Nat.eqb_eq. cbn [In].
    split.
    + intros [[<-|H]|H]; [right; split; [assumption|left; congruence]|tauto|tauto].
    + intros [H|[Hi [H|H]]]; [tauto| |tauto]. left. left. apply (NoDup_nth idx 0); [assumption|assumption|assumption|congruence].
Qed.

Lemma mmap_gen {A B} (f : A -> outcome B) (h : A -> B) l : (forall a, In a l -> f a = Ok (h a)) ->
  mmap f l = Ok (map h l).
Proof.
  intros H. unfold mmap. assert (G : forall acc, mfold (fun acc a => let* b := f a in Ok (acc ++ [b])) l acc = Ok (acc ++ map h l)).
  { induction l as [|a l IH]; intros acc; cbn [mfold map].
    - now rewrite app_nil_r.
    - rewrite H by now left. cbn [bind]. rewrite IH by (intros x Hx; apply H; now right). now rewrite <- app_assoc. }
  apply G.
Qed.

Lemma initialize_spec g muls :
  initialize g muls = Ok None \/
  exists masks, initialize g muls = Ok (Some (assign_indices g muls, masks)) /\
    length muls <= 64 /\ length (assign_indices g muls) <= 64 /\ length masks = length muls /\
    forall j, j < length muls -> forall i, bit (nth j masks 0%N) i = true <->
       i < length (assign_indices g muls) /\ In (nth i (assign_indices g muls) 0) (args g (nth j muls 0)).
Proof.
  unfold initialize, MAX_VARS_OR_TERMS. destruct (Nat.ltb_spec 64 (length muls)); [now left|].
  remember (assign_indices g muls) as idx eqn:Ei.
  destruct (Nat.ltb_spec 64 (length idx)); [now left|]. right.
  assert (ND : NoDup idx) by (subst; apply assign_nodup).
  assert (I : forall m, In m muls -> incl (args g m) idx).
  { intros m Hm x Hx. subst idx. apply assign_in. now exists m. }
  set (h := fun m => match term_mask g idx m with Ok z => z | _ => 0%N end).
  assert (Hh : forall m, In m muls -> term_mask g idx m = Ok (h m) /\
                (forall i, bit (h m) i = true <-> i < length idx /\ In (nth i idx 0) (args g m))).
  { intros m Hm. destruct (term_mask_gen idx ND (args g m) 0%N (I m Hm)) as (z & E & Hz).
    unfold h, term_mask. rewrite E. split; [reflexivity|]. intros i. rewrite Hz, bit_zero. intuition discriminate. }
  exists (map h muls). rewrite (mmap_gen _ h) by (intros a Ha; now apply Hh). cbn [bind].
  split; [reflexivity|]. split; [lia|]. split; [lia|]. split; [apply map_length|].
  intros j Hj i. rewrite (nth_indep _ 0%N (h 0)) by now rewrite map_length. rewrite map_nth. apply Hh. now apply nth_In.
Qed.

(** * What remains of a product *)
Lemma is_sorted_true l : sorted_names l -> is_sorted l = true.
Proof.
  induction l as [|x [|y t] IH]; intros H; try reflexivity. destruct H as [H1 H2]. cbn [is_sorted].
  rewrite (proj2 (Nat.leb_le x y) H1). now apply IH.
Qed.
Lemma sorted_strongly l : sorted_names l -> StronglySorted le l.
Proof.
  intros H. apply Sorted_StronglySorted; [intros a b c; lia|]. induction l as [|x [|y t] IH]; [constructor|repeat constructor|].
  destruct H as [H1 H2]. constructor; [now apply IH|now constructor].
Qed.

Lemma cells_of {A} (kept : list A) n :
  flat_map (fun c : option A => match c with Some x => [x] | None => [] end) (firstn (length kept) (map Some kept ++ repeat None n)) = kept.
Proof.
  rewrite firstn_app, map_length, Nat.sub_diag, app_nil_r.
  rewrite firstn_all2 by (rewrite map_length; lia). induction kept as [|x t IH]; [reflexivity|]. cbn. now rewrite IH.
Qed.

Lemma filter_split {A} (f : A -> bool) l : Permutation l (filter f l ++ filter (fun x => negb (f x)) l).
Proof.
  induction l as [|x t IH]; [reflexivity|]. cbn [filter]. destruct (f x); cbn [negb app].
  - now constructor.
  - rewrite IH at 1. apply Permutation_middle.
Qed.

Lemma variables_nodup idx vars : NoDup idx -> NoDup (variables_of idx vars).
Proof.
  intros ND. unfold variables_of.
  assert (G : forall l, NoDup l -> (forall i, In i l -> i < length idx) -> NoDup (map (fun i => nth i idx 0) l)).
  { induction l as [|i l IH]; intros NDl H; [constructor|]. inversion NDl as [|? ? Ni NDl']; subst. cbn [map]. constructor.
    - intros Hin. apply in_map_iff in Hin as (j & E & Hj). apply Ni.
      replace i with j; [assumption|]. apply (NoDup_nth idx 0); auto; apply H; [now right|now left].
    - apply IH; [assumption|]. intros j Hj. apply H. now right. }
  apply G; [apply NoDup_filter, seq_NoDup|]. intros i Hi. apply filter_In in Hi as [Hi _]. apply in_seq in Hi. lia.
Qed.
Lemma variables_in idx vars x : In x (variables_of idx vars) <-> exists i, i < length idx /\ bit vars i = true /\ nth i idx 0 = x.
Proof.
  unfold variables_of. rewrite in_map_iff. split.
  - intros (i & E & Hi). apply filter_In in Hi as [Hi Hb]. apply in_seq in Hi. exists i. repeat split; auto; lia.
  - intros (i & L & Hb & E). exists i. split; [assumption|]. apply filter_In. split; [apply in_seq; lia|assumption].
Qed.

Lemma remaining_spec g idx vars mul :
  NoDup idx -> sorted_names (args g mul) -> incl (args g mul) idx ->
  (forall i, i < length idx -> bit vars i = true -> In (nth i idx 0) (args g mul)) ->
  exists rem, remaining_operands g idx vars mul = Ok rem /\ Permutation (args g mul) (variables_of idx vars ++ rem).
Proof.
  intros ND S I Dv. unfold remaining_operands. rewrite is_sorted_true by assumption.
  assert (Gr : grouped (args g mul)).
  { apply (C43_sorted_is_grouped name le); [intros x y; lia|now apply sorted_strongly]. }
  destruct (C43_unique_and_extract nat Nat.eqb (args g mul) Nat.eqb_eq Gr) as (kept & dups & E & P & NDk & Hk & _).
  rewrite E. cbn [bind]. rewrite cells_of.
  set (fo := fun x => match index_of x idx with Ok i => bit vars i | _ => false end).
  assert (W : forall x, In x kept -> was_factored_out idx vars x = Ok (fo x)).
  { intros x Hx. unfold was_factored_out, fo. destruct (index_of_in x idx) as (i & -> & _); [apply I; now apply Hk|]. reflexivity. }
  assert (F : forall acc l, incl l kept ->
    mfold (fun acc v => let* out := was_factored_out idx vars v in Ok (if out then acc else acc ++ [v])) l acc =
    Ok (acc ++ filter (fun x => negb (fo x)) l)).
  { intros acc l. revert acc. induction l as [|x l IH]; intros acc Il; cbn [mfold filter].
    - now rewrite app_nil_r.
    - rewrite W by (apply Il; now left). cbn [bind]. destruct (fo x); cbn [negb].
      + apply IH. intros y Hy. apply Il. now right.
      + rewrite IH by (intros y Hy; apply Il; now right). now rewrite <- app_assoc. }
  rewrite F by apply incl_refl. eexists. split; [reflexivity|].
  rewrite <- P.
  assert (V : Permutation (filter fo kept) (variables_of idx vars)).
  { apply NoDup_Permutation; [now apply NoDup_filter|now apply variables_nodup|]. intros x.
    rewrite filter_In, variables_in. split.
    - intros [Hx Hf]. unfold fo in Hf. destruct (index_of_in x idx) as (i & Ei & L & En); [apply I; now apply Hk|].
      rewrite Ei in Hf. now exists i.
    - intros (i & L & Hb & <-). split; [apply Hk; now apply Dv|]. unfold fo. now rewrite index_of_nth. }
  rewrite (filter_split fo kept) at 1. rewrite V. rewrite <- app_assoc. apply Permutation_app_head. apply Permutation_app_comm.
Qed.

(** * Factoring one sum *)
Section Factor.
Context {TY : typing}.
Variables (b : nat) (g0 : graph) (l1 l2 : list name) (u : numeric) (idx muls : list name).
Hypothesis P0 : program TY g0 b (l1 ++ l2).
Hypothesis Nu : u <> NBool.
Hypothesis NDi : NoDup idx.
Hypothesis Hmul : forall m, In m muls ->
  In m l1 /\ op_of g0 m = OMul /\ ty_of g0 m = TScalar u /\ incl (args g0 m) idx.
Hypothesis Hidx : forall x, In x idx -> In x l1 /\ ty_of g0 x = TScalar u.

(** A list of values being collected while the graph grows. *)
Record collected (g : graph) (new l : list name) (val : forall A, (name -> D A) -> D A) : Prop := {
  co_grown : grown (TY := TY) b g0 l1 l2 new g;
  co_in : incl l (l1 ++ new);
  co_ty : forall x, In x l -> ty_of g x = TScalar u;
  co_val : forall A (r : name -> D A), consistent r g ((l1 ++ new) ++ l2) -> sum A (map r l) = val A r
}.

Lemma collected_grow g new l val new' g' :
  collected g new l val -> grown (TY := TY) b g (l1 ++ new) l2 new' g' -> collected g' (new ++ new') l val.
Proof.
  intros [G I T V] G'. split.
  - eapply grown_trans; eassumption.
  - intros x Hx. specialize (I x Hx). rewrite !in_app_iff in *. tauto.
  - intros x Hx. destruct G' as [_ _ O]. destruct (O x) as (_ & -> & _); [|now apply T].
    destruct G as [[B _] _ _]. apply (bo_fresh _ _ _ B). apply in_or_app. left. now apply I.
  - intros A r C. apply V. destruct G as [P _ _]. rewrite (app_assoc l1 new new') in C.
    eapply grown_cons; eassumption.
Qed.

Lemma collected_snoc g new l val x (v : forall A, (name -> D A) -> D A) :
  collected g new l val -> In x (l1 ++ new) -> ty_of g x = TScalar u ->
  (forall A (r : name -> D A), consistent r g ((l1 ++ new) ++ l2) -> r x = v A r) ->
  collected g new (l ++ [x]) (fun A r => dadd A (val A r) (v A r)).
Proof.
  intros [G I T V] Hx Tx Vx. split.
  - assumption.
  - intros y Hy. apply in_app_or in Hy as [Hy|[<-|[]]]; [now apply I|assumption].
  - intros y Hy. apply in_app_or in Hy as [Hy|[<-|[]]]; [now apply T|assumption].
  - intros A r C. rewrite map_app, sum_app. cbn [map]. rewrite sum_one. f_equal; [now apply V|now apply Vx].
Qed.

(** Old values in a grown graph. *)
Lemma old_value g new x : grown (TY := TY) b g0 l1 l2 new g -> In x l1 ->
  In x (l1 ++ new) /\ op_of g x = op_of g0 x /\ ty_of g x = ty_of g0 x /\ args g x = args g0 x.
Proof.
  intros [_ _ O] Hx. split; [apply in_or_app; now left|]. apply O. destruct P0 as [B _]. apply (bo_fresh _ _ _ B).
  apply in_or_app. now left.
Qed.

Lemma variables_old vars x : In x (variables_of idx vars) -> In x l1 /\ ty_of g0 x = TScalar u.
Proof. intros H. apply variables_in in H as (i & L & _ & <-). apply Hidx. now apply nth_In. Qed.

Lemma factored_term_spec vars g new ops mul :
  grown (TY := TY) b g0 l1 l2 new g -> In mul muls ->
  (forall i, i < length idx -> bit vars i = true -> In (nth i idx 0) (args g0 mul)) ->
  exists g' new' p, factored_term b u idx vars (g, ops) mul = Ok (g', ops ++ new', p) /\
    grown (TY := TY) b g (l1 ++ new) l2 new' g' /\ In p (l1 ++ new ++ new') /\ ty_of g' p = TScalar u /\
    forall A (r : name -> D A), consistent r g' ((l1 ++ new ++ new') ++ l2) ->
      r mul = dmul A (prod A (map r (variables_of idx vars))) (r p).
Proof.
  intros G Hm Dv. destruct (Hmul mul Hm) as (Ml & Mo & Mt & Mi).
  destruct (old_value g new mul G Ml) as (Ml' & Mo' & Mt' & Ma').
  pose proof P0 as [B0 O0]. pose proof (gr_prog _ _ _ _ _ _ G) as P. 
  destruct (remaining_spec g idx vars mul NDi) as (rem & Er & Pr).
  - rewrite Ma'. apply (bo_sorted _ _ _ B0); [apply in_or_app; now left|now rewrite Mo].
  - now rewrite Ma'.
  - now rewrite Ma'.
  - unfold factored_term. rewrite Er. cbn [bind].
    assert (Ir : forall x, In x rem -> In x l1 /\ ty_of g x = TScalar u).
    { intros x Hx. assert (In x idx) as Hxi.
      { apply Mi. rewrite <- Ma'. apply (Permutation_in x (Permutation_sym Pr)). apply in_or_app. now right. }
      destruct (Hidx x Hxi) as [H1 H2]. split; [assumption|]. destruct (old_value g new x G H1) as (_ & _ & -> & _). assumption. }
    assert (Val : forall A (r : name -> D A), consistent r g ((l1 ++ new) ++ l2) ->
              r mul = dmul A (prod A (map r (variables_of idx vars))) (prod A (map r rem))).
    { intros A r C. rewrite (C mul) by (apply in_or_app; now left). rewrite Mo', Mo, sem_mul.
      rewrite (prod_perm A _ _ (Permutation_map r Pr)). rewrite map_app. apply prod_app. }
    destruct rem as [|x [|y rem]].
    + (* everything was taken out *)
      destruct (grown_push (TY := TY) b g (l1 ++ new) l2 (OLoad (LInt 1)) (TScalar NInt) []) as (g1 & E1 & G1 & O1 & T1 & V1);
        [assumption|intros a []| |].
      { split; [split| |]; try discriminate; try reflexivity.
        - cbn [map]. now rewrite ft_int.
        - repeat split; discriminate.
        - intros a []. }
      rewrite E1. cbn [bind]. unfold maybe_cast, numeric_type. rewrite T1. cbn [bind].
      assert (Hn : In (g_next g) ((l1 ++ new) ++ [g_next g])) by (apply in_or_app; right; now left).
      destruct (numeric_dec NInt u) as [<-|Nt].
      * cbn [bind]. rewrite Nat.eqb_refl. exists g1, [g_next g], (g_next g). rewrite app_nil_r.
        split; [reflexivity|]. split; [assumption|]. rewrite (app_assoc l1). split; [assumption|]. split; [assumption|].
        intros A r C. pose proof (grown_cons _ _ _ _ _ _ A r P G1 C) as C0. rewrite (Val A r C0), (V1 A r C). cbn [map]. rewrite sem_one. reflexivity.
      * pose proof (gr_prog _ _ _ _ _ _ G1) as P1.
        assert (parent g1 (g_next g) = b) as ->.
        { destruct P1 as [B1 _]. apply (bo_parent _ _ _ B1). apply in_or_app. now left. }
        destruct (grown_push (TY := TY) b g1 ((l1 ++ new) ++ [g_next g]) l2 (OCast u) (TScalar u) [g_next g])
          as (g2 & E2 & G2 & O2 & T2 & V2); [assumption| | |].
        { intros a [<-|[]]. assumption. }
        { split; [split| |]; try discriminate; try reflexivity.
          - cbn [map]. now rewrite ft_cast.
          - repeat split; congruence.
          - intros a [<-|[]]. rewrite T1. discriminate. }
        rewrite E2. cbn [bind].
        pose proof (sim_next _ _ _ _ (gr_sim _ _ _ _ _ _ G1)) as N1.
        destruct (Nat.eqb_spec (g_next g1) (g_next g)) as [Eq|_].
        { exfalso. destruct P1 as [B1 _]. pose proof (bo_fresh _ _ _ B1 (g_next g)) as F. rewrite in_app_iff in F. specialize (F (or_introl Hn)). lia. }
        exists g2, ([g_next g] ++ [g_next g1]), (g_next g1). split; [now rewrite app_assoc|].
        split; [eapply grown_trans; eassumption|]. split; [rewrite !in_app_iff; cbn; tauto|]. split; [assumption|].
        intros A r C. rewrite !app_assoc in C.
        pose proof (grown_cons _ _ _ _ _ _ A r P1 G2 C) as C1.
        pose proof (grown_cons _ _ _ _ _ _ A r P G1 C1) as C0.
        rewrite (Val A r C0), (V2 A r C). cbn [map]. rewrite (V1 A r C1). cbn [map]. rewrite sem_one, sem_cast_one by assumption. reflexivity.
    + exists g, [], x. rewrite !app_nil_r. split; [reflexivity|]. split; [now apply grown_refl|].
      destruct (Ir x) as [H1 H2]; [now left|]. split; [apply in_or_app; now left|]. split; [assumption|].
      intros A r C. rewrite (Val A r C). cbn [map]. now rewrite prod_one.
    + destruct (grown_push (TY := TY) b g (l1 ++ new) l2 OMul (TScalar u) (x :: y :: rem)) as (g1 & E1 & G1 & O1 & T1 & V1); [assumption| | |].
      { intros a Ha. apply in_or_app. left. now apply Ir. }
      { apply fits_comm; [reflexivity|assumption|cbn; lia|]. intros a Ha. now apply Ir. }
      rewrite E1. cbn [bind fst snd]. exists g1, [g_next g], (g_next g). split; [reflexivity|]. split; [assumption|].
      split; [rewrite !in_app_iff; cbn; tauto|]. split; [assumption|]. intros A r C. rewrite app_assoc in C.
      pose proof (grown_cons _ _ _ _ _ _ A r P G1 C) as C0. rewrite (Val A r C0), (V1 A r C), sem_mul. reflexivity.
Qed.

(** The terms of one step. *)
Definition term_sum (terms : bits) (js : list nat) A (r : name -> D A) : D A :=
  sum A (map (fun j => r (nth j muls 0)) (filter (bit terms) js)).

(** Like [collected], after multiplication by a common factor. *)
Record scaled (vars : bits) (g : graph) (new l : list name) (val : forall A, (name -> D A) -> D A) : Prop := {
  sc_grown : grown (TY := TY) b g0 l1 l2 new g;
  sc_in : incl l (l1 ++ new);
  sc_ty : forall x, In x l -> ty_of g x = TScalar u;
  sc_val : forall A (r : name -> D A), consistent r g ((l1 ++ new) ++ l2) ->
     dmul A (prod A (map r (variables_of idx vars))) (sum A (map r l)) = val A r
}.

Lemma step_terms vars terms : 
  (forall i j, bit vars i = true -> bit terms j = true -> i < length idx -> j < length muls -> In (nth i idx 0) (args g0 (nth j muls 0))) ->
  forall js g new ops l val, (forall j, In j js -> j < length muls) -> scaled vars g new l val ->
  exists g' new' l', mfold (fun (acc : graph * list name * list name) j =>
                       let '(g, ops, sum_args) := acc in
                       if bit terms j then
                         let* x := factored_term b u idx vars (g, ops) (nth j muls 0) in
                         Ok (fst x, sum_args ++ [snd x])
                       else Ok acc) js (g, ops, l) = Ok (g', ops ++ new', l') /\
    grown (TY := TY) b g (l1 ++ new) l2 new' g' /\
    scaled vars g' (new ++ new') l' (fun A r => dadd A (val A r) (term_sum terms js A r)) /\
    length l' = length l + length (filter (bit terms) js).
Proof.
  intros Dv. induction js as [|j js IH]; intros g new ops l val Hj Sc.
  - exists g, [], l. cbn [mfold filter length]. rewrite !app_nil_r, Nat.add_0_r. split; [reflexivity|].
    pose proof (gr_prog _ _ _ _ _ _ (sc_grown _ _ _ _ _ Sc)) as P.
    split; [now apply grown_refl|]. split; [|reflexivity]. destruct Sc as [G I T V]. split; try assumption.
    intros A r C. rewrite (V A r C). unfold term_sum. cbn [filter map]. unfold sum. cbn [fold_right].
    rewrite (Radd_comm (d_ring A)). now rewrite (Radd_0_l (d_ring A)).
  - cbn [mfold filter]. destruct (bit terms j) eqn:Ej.
    + destruct Sc as [G I T V].
      destruct (factored_term_spec vars g new ops (nth j muls 0) G) as (g1 & n1 & p & E1 & G1 & I1 & T1 & V1).
      { apply nth_In. apply Hj. now left. }
      { intros i Hi Hb. apply Dv; auto. apply Hj. now left. }
      rewrite E1. cbn [bind fst snd].
      pose proof (gr_prog _ _ _ _ _ _ G) as P.
      destruct (IH g1 (new ++ n1) (ops ++ n1) (l ++ [p]) (fun A r => dadd A (val A r) (r (nth j muls 0))))
        as (g2 & n2 & l' & E2 & G2 & S2 & L2).
      { intros k Hk. apply Hj. now right. }
      { split.
        - eapply grown_trans; eassumption.
        - intros y Hy. apply in_app_or in Hy as [Hy|[<-|[]]]; [|assumption]. specialize (I y Hy). rewrite !in_app_iff in *. tauto.
        - intros y Hy. apply in_app_or in Hy as [Hy|[<-|[]]]; [|assumption].
          destruct G1 as [_ _ O1]. destruct (O1 y) as (_ & -> & _); [|now apply T].
          destruct P as [B _]. apply (bo_fresh _ _ _ B). apply in_or_app. left. now apply I.
        - intros A r C. rewrite map_app, sum_app. cbn [map]. rewrite sum_one.
          rewrite (V1 A r C). rewrite (app_assoc l1) in C.
          pose proof (grown_cons _ _ _ _ _ _ A r P G1 C) as C0. rewrite <- (V A r C0).
          pose proof (d_ring A) as Rg. rewrite !(Rmul_comm Rg (prod A _)). now rewrite (Rdistr_l Rg). }
      exists g2, (n1 ++ n2), l'. split; [rewrite E2; now rewrite <- app_assoc|].
      split; [eapply grown_trans; [eassumption|now rewrite <- app_assoc]|]. split.
      * rewrite <- app_assoc in S2. destruct S2 as [G3 I3 T3 V3]. split; try assumption. intros A r C. rewrite (V3 A r C).
        unfold term_sum. cbn [filter]. rewrite Ej. cbn [map]. unfold sum. cbn [fold_right].
        pose proof (d_ring A) as Rg. now rewrite <- (Radd_assoc Rg).
      * rewrite L2, app_length. cbn. lia.
    + cbn [bind]. destruct (IH g new ops l val) as (g2 & n2 & l' & E2 & G2 & S2 & L2); [intros k Hk; apply Hj; now right|assumption|].
      exists g2, n2, l'. split; [assumption|]. split; [assumption|]. split; [|assumption].
      destruct S2 as [G3 I3 T3 V3]. split; try assumption. intros A r C. rewrite (V3 A r C).
      unfold term_sum. cbn [filter]. now rewrite Ej.
Qed.

Lemma count_filter terms n : n <= 64 -> (forall i, bit terms i = true -> i < n) -> length (filter (bit terms) (seq 0 n)) = count terms.
Proof.
  intros Hn H. rewrite count_members. rewrite (members_eq (n + (64 - n))) by lia. rewrite seq_app, filter_app, app_length.
  assert (filter (bit terms) (seq (0 + n) (64 - n)) = []) as ->; [|cbn; lia].
  assert (G : forall l, (forall i, In i l -> n <= i) -> filter (bit terms) l = []).
  { induction l as [|x t IH]; intros Hl; [reflexivity|]. cbn [filter]. destruct (bit terms x) eqn:E.
    - apply H in E. specialize (Hl x (or_introl eq_refl)). lia.
    - apply IH. intros i Hi. apply Hl. now right. }
  apply G. intros i Hi. apply in_seq in Hi. lia.
Qed.

Lemma member_in t i : i < 64 -> bit t i = true -> In i (members t).
Proof. intros L H. rewrite (members_eq 64 t eq_refl). apply filter_In. split; [apply in_seq; lia|assumption]. Qed.
Lemma in_length {A} (x : A) l : In x l -> 1 <= length l.
Proof. destruct l; cbn; [tauto|lia]. Qed.

Variables (masks : list bits).
Hypothesis Li : length idx <= 64.
Hypothesis Lm : length muls <= 64.
Hypothesis Lk : length masks = length muls.
Hypothesis Hmask : forall j, j < length muls -> forall i, bit (nth j masks 0%N) i = true ->
   i < length idx /\ In (nth i idx 0) (args g0 (nth j muls 0)).

Lemma factored_step_spec s g new ops l val :
  step_ok masks (length idx) s -> collected g new l val ->
  exists g' new' l', factored_step b u idx muls (g, ops, l) s = Ok (g', ops ++ new', l') /\
    collected g' (new ++ new') l' (fun A r => dadd A (val A r) (term_sum (snd s) (seq 0 (length muls)) A r)) /\ l' <> [].
Proof.
  intros [So1 So2 So3 So4 So5] Co. destruct s as [vars terms]. cbn [fst snd] in *. rewrite Lk in So4.
  unfold factored_step.
  destruct (nonzero_bit vars So1) as [i0 Hi0].
  assert (1 <= count vars) as Cv.
  { rewrite count_members. apply (in_length i0). apply member_in; [|assumption]. specialize (So3 i0 Hi0). lia. }
  assert (2 <= count terms) as Ct by now rewrite count_members.
  rewrite (proj2 (Nat.leb_le _ _) Cv), (proj2 (Nat.leb_le _ _) Ct). cbn [andb].
  pose proof (gr_prog _ _ _ _ _ _ (co_grown _ _ _ _ Co)) as P.
  destruct (step_terms vars terms) with (js := seq 0 (length muls)) (g := g) (new := new) (ops := ops) (l := @nil name)
    (val := fun A (r : name -> D A) => d0 A) as (g1 & n1 & sa & E1 & G1 & S1 & L1).
  { intros i j Hi Hj Li' Lj. now apply (Hmask j Lj), So5. }
  { intros j Hj. apply in_seq in Hj. lia. }
  { split; [apply Co|intros x []|intros x []|]. intros A r C. cbn [map]. unfold sum. cbn [fold_right].
    pose proof (d_ring A) as Rg. rewrite (Rmul_comm Rg). apply (ARmul_0_l (Rth_ARth (Eqsth _) (Eq_ext _ _ _) Rg)). }
  rewrite E1. cbn [bind]. cbn [length] in L1. rewrite (count_filter terms (length muls) Lm So4) in L1.
  assert (2 <=? length sa = true) as -> by (apply Nat.leb_le; lia).
  destruct S1 as [Gs Is Ts Vs].
  pose proof (gr_prog _ _ _ _ _ _ Gs) as P1.
  destruct (grown_push (TY := TY) b g1 (l1 ++ new ++ n1) l2 OAdd (TScalar u) sa P1 Is) as (g2 & E2 & G2 & O2 & T2 & V2).
  { apply fits_comm; [reflexivity|assumption|lia|assumption]. }
  rewrite E2. cbn [bind].
  assert (Lv : 1 <= length (variables_of idx vars)).
  { apply (in_length (nth i0 idx 0)). apply variables_in. exists i0. repeat split; auto. }
  assert (2 <=? length (variables_of idx vars ++ [g_next g1]) = true) as ->.
  { apply Nat.leb_le. rewrite app_length. cbn. lia. }
  pose proof (gr_prog _ _ _ _ _ _ G2) as P2.
  pose proof (grown_trans _ _ _ _ _ _ _ _ Gs G2) as Gs2.
  destruct (grown_push (TY := TY) b g2 ((l1 ++ new ++ n1) ++ [g_next g1]) l2 OMul (TScalar u) (variables_of idx vars ++ [g_next g1]) P2)
    as (g3 & E3 & G3 & O3 & T3 & V3).
  { intros x Hx. apply in_app_or in Hx as [Hx|Hx]; [|apply in_or_app; now right].
    apply variables_old in Hx as [Hx _]. rewrite !in_app_iff. tauto. }
  { apply fits_comm; [reflexivity|assumption|rewrite app_length; cbn; lia|].
    intros x Hx. apply in_app_or in Hx as [Hx|[<-|[]]]; [|assumption].
    apply variables_old in Hx as [Hx Tx]. destruct (old_value g2 _ x Gs2 Hx) as (_ & _ & -> & _). assumption. }
  rewrite E3. cbn [bind fst snd].
  exists g3, (n1 ++ [g_next g1] ++ [g_next g2]), (l ++ [g_next g2]). split; [now rewrite <- !app_assoc|].
  split; [|intros H; apply app_eq_nil in H; destruct H; discriminate].
  pose proof (grown_trans _ _ _ _ _ _ _ _ (grown_trans _ _ _ _ _ _ _ _ G1 (eq_rect _ (fun z => grown b g1 z l2 [g_next g1] g2) G2 _ (app_assoc l1 new n1)))
     (eq_rect _ (fun z => grown b g2 z l2 [g_next g2] g3) G3 _ (eq_trans (f_equal (fun z => z ++ [g_next g1]) (app_assoc l1 new n1)) (eq_sym (app_assoc (l1 ++ new) n1 [g_next g1]))))) as G13.
  rewrite <- app_assoc in G13.
  pose proof (collected_grow _ _ _ _ _ _ Co G13) as Co'.
  apply collected_snoc; [assumption| |assumption|].
  - rewrite !in_app_iff. cbn. tauto.
  - intros A r C.
    assert (C3 : consistent r g3 ((((l1 ++ new ++ n1) ++ [g_next g1]) ++ [g_next g2]) ++ l2)).
    { revert C. cbn [app]. rewrite <- !app_assoc. cbn [app]. auto. }
    pose proof (grown_cons _ _ _ _ _ _ A r P2 G3 C3) as C2.
    pose proof (grown_cons _ _ _ _ _ _ A r P1 G2 C2) as C1.
    rewrite (V3 A r C3), sem_mul. fold (prod A (map r (variables_of idx vars ++ [g_next g1]))). rewrite map_app, prod_app. cbn [map]. rewrite prod_one.
    rewrite (V2 A r C2), sem_add. fold (sum A (map r sa)). rewrite (Vs A r C1). apply (Radd_0_l (d_ring A)).
Qed.

Lemma steps_spec : forall ss g new ops l val,
  (forall s, In s ss -> step_ok masks (length idx) s) -> collected g new l val ->
  exists g' new' l', mfold (factored_step b u idx muls) ss (g, ops, l) = Ok (g', ops ++ new', l') /\
    collected g' (new ++ new') l'
      (fun A r => dadd A (val A r) (sum A (map (fun s : step => term_sum (snd s) (seq 0 (length muls)) A r) ss))) /\
    (l <> [] \/ ss <> [] -> l' <> []).
Proof.
  induction ss as [|s ss IH]; intros g new ops l val H Co.
  - exists g, [], l. cbn [mfold]. rewrite !app_nil_r. split; [reflexivity|]. split.
    + destruct Co as [G I T V]. split; try assumption. intros A r C. rewrite (V A r C). cbn [map]. unfold sum. cbn [fold_right].
      pose proof (d_ring A) as Rg. now rewrite (Radd_comm Rg), (Radd_0_l Rg).
    + intros [|]; congruence.
  - cbn [mfold]. destruct (factored_step_spec s g new ops l val) as (g1 & n1 & sl & E1 & C1 & N1); [apply H; now left|assumption|].
    rewrite E1. cbn [bind]. destruct (IH g1 (new ++ n1) (ops ++ n1) sl _ (fun s Hs => H s (or_intror Hs)) C1) as (g2 & n2 & l' & E2 & C2 & N2).
    exists g2, (n1 ++ n2), l'. split; [rewrite E2; now rewrite <- app_assoc|]. split; [|intros _; apply N2; now left].
    rewrite <- app_assoc in C2. destruct C2 as [G I T V]. split; try assumption. intros A r C. rewrite (V A r C). cbn [map].
    unfold sum at 2. cbn [fold_right]. fold (sum A (map (fun s : step => term_sum (snd s) (seq 0 (length muls)) A r) ss)).
    pose proof (d_ring A) as Rg. now rewrite (Radd_assoc Rg).
Qed.

Lemma sum_cons A x l : sum A (x :: l) = dadd A x (sum A l).
Proof. reflexivity. Qed.

(** Every term is in exactly one step or left over. *)
Lemma partition_sum A (f : nat -> D A) js : forall (ss : list step) (p : nat -> bool),
  disjoint_steps ss -> (forall s, In s ss -> forall j, bit (snd s) j = true -> p j = true) ->
  sum A (map f (filter p js)) =
  dadd A (sum A (map (fun s : step => sum A (map f (filter (bit (snd s)) js))) ss))
         (sum A (map f (filter (fun j => p j && negb (existsb (fun s : step => bit (snd s) j) ss)) js))).
Proof.
  pose proof (d_ring A) as Rg. induction ss as [|s ss IH]; intros p Hd Hp.
  - cbn [map existsb negb]. unfold sum at 2. cbn [fold_right]. rewrite (Radd_0_l Rg). f_equal. f_equal. apply filter_ext.
    intros j. now rewrite Bool.andb_true_r.
  - destruct Hd as [Hd1 Hd2].
    assert (E : sum A (map f (filter p js)) =
       dadd A (sum A (map f (filter (bit (snd s)) js))) (sum A (map f (filter (fun j => p j && negb (bit (snd s) j)) js)))).
    { clear IH. induction js as [|j js IHj].
      - cbn. now rewrite (Radd_0_l Rg).
      - cbn [filter]. pose proof (Hp s (or_introl eq_refl) j) as Hj. destruct (bit (snd s) j); cbn [negb].
        + rewrite Hj by reflexivity. cbn [andb map]. unfold sum in *. cbn [fold_right]. rewrite IHj. now rewrite (Radd_assoc Rg).
        + rewrite Bool.andb_true_r. destruct (p j); [|exact IHj]. cbn [map]. unfold sum in *. cbn [fold_right]. rewrite IHj.
          rewrite !(Radd_assoc Rg). f_equal. apply (Radd_comm Rg). }
    rewrite E, (IH (fun j => p j && negb (bit (snd s) j))).
    + cbn [map]. rewrite (sum_cons A (sum A (map f (filter (bit (snd s)) js)))).
      rewrite (Radd_assoc Rg). f_equal. f_equal. f_equal. apply filter_ext. intros j. cbn [existsb].
      rewrite Bool.negb_orb. now rewrite Bool.andb_assoc.
    + assumption.
    + intros s' Hs' j Hj. rewrite (Hp s' (or_intror Hs') j Hj). cbn [andb]. apply Bool.negb_true_iff.
      destruct (bit (snd s) j) eqn:Eb; [|reflexivity]. rewrite (Hd1 s' Hs' j Eb) in Hj. discriminate.
Qed.

Lemma seq_nth_map {A} (l : list name) (f : name -> A) : map (fun j => f (nth j l 0)) (seq 0 (length l)) = map f l.
Proof.
  rewrite <- (map_map (fun j => nth j l 0) f). f_equal.
  induction l as [|x t IH]; [reflexivity|]. cbn [length seq map]. f_equal. rewrite <- seq_shift, map_map. exact IH.
Qed.

Lemma factorize_unfold g fac non_muls ops m ms t : muls = m :: ms -> numeric_type g m = Ok t ->
  factorize_sum_of_products g b idx fac muls non_muls ops =
      let* r := mfold (factored_step b t idx muls) (f_steps fac) (g, ops, []) in
      let '(g, ops, sum) := r in
      let left := unfactored_terms fac (length muls) in
      let sum := (sum ++ non_muls) ++ map (fun i => nth i muls 0) (filter (bit left) (seq 0 (length muls))) in
      match sum with
      | [] => Throws
      | [x] => Ok (g, ops, x)
      | _ => let* gs := push_value g b OAdd (TScalar t) sum in Ok (fst gs, ops ++ [snd gs], snd gs)
      end.
Proof. intros -> H. unfold factorize_sum_of_products. now rewrite H. Qed.

(** The new value of the sum. *)
Lemma factorize_sum_spec non_muls fac ops :
  muls <> [] -> factorization_ok masks (length idx) fac ->
  (forall x, In x non_muls -> In x l1 /\ ty_of g0 x = TScalar u) ->
  exists g' new v, factorize_sum_of_products g0 b idx fac muls non_muls ops = Ok (g', ops ++ new, v) /\
    grown (TY := TY) b g0 l1 l2 new g' /\ In v (l1 ++ new) /\ ty_of g' v = TScalar u /\
    forall A (r : name -> D A), consistent r g' ((l1 ++ new) ++ l2) ->
      r v = dadd A (sum A (map r muls)) (sum A (map r non_muls)).
Proof.
  intros Nm [Fo1 Fo2 Fo3 Fo4 Fo5] Hnon.
  assert (Hex : exists m ms, muls = m :: ms) by (destruct muls as [|m ms]; [congruence|now exists m, ms]).
  destruct Hex as (m & ms & Em). rewrite (factorize_unfold g0 fac non_muls ops m ms u Em).
  2: { destruct (Hmul m) as (_ & _ & Ht & _); [rewrite Em; now left|]. unfold numeric_type. now rewrite Ht. }
  destruct (steps_spec (f_steps fac) g0 [] ops [] (fun A (r : name -> D A) => d0 A)) as (g1 & n1 & sl & E1 & C1 & N1).
  { assumption. }
  { split; [now apply grown_refl|intros x []|intros x []|]. reflexivity. }
  cbn [app] in C1.
  remember (map (fun i => nth i muls 0) (filter (bit (unfactored_terms fac (length muls))) (seq 0 (length muls)))) as rest eqn:Er.
  assert (Hrest : forall x, In x rest -> In x muls).
  { intros x Hx. subst rest. apply in_map_iff in Hx as (i & <- & Hi). apply filter_In in Hi as [Hi _]. apply in_seq in Hi. apply nth_In. lia. }
  assert (Gall : collected g1 n1 ((sl ++ non_muls) ++ rest) (fun A r => dadd A (sum A (map r muls)) (sum A (map r non_muls)))).
  { destruct C1 as [G I T V]. 
    assert (Old : forall x, In x non_muls \/ In x rest -> In x (l1 ++ n1) /\ ty_of g1 x = TScalar u).
    { intros x Hx. assert (In x l1 /\ ty_of g0 x = TScalar u) as [H1 H2].
      { destruct Hx as [Hx|Hx]; [now apply Hnon|]. apply Hrest in Hx. destruct (Hmul x Hx) as (? & _ & ? & _). now split. }
      destruct (old_value g1 n1 x G H1) as (? & _ & -> & _). now split. }
    split.
    - assumption.
    - intros x Hx. rewrite !in_app_iff in Hx. destruct Hx as [[Hx|Hx]|Hx]; [now apply I|apply Old; tauto|apply Old; tauto].
    - intros x Hx. rewrite !in_app_iff in Hx. destruct Hx as [[Hx|Hx]|Hx]; [now apply T|apply Old; tauto|apply Old; tauto].
    - intros A r C. rewrite !map_app, !sum_app, (V A r C). pose proof (d_ring A) as Rg.
      rewrite (Radd_0_l Rg). rewrite <- (Radd_assoc Rg), (Radd_comm Rg (sum A (map r non_muls))), (Radd_assoc Rg). f_equal.
      rewrite <- (seq_nth_map muls r).
      pose proof (partition_sum A (fun j => r (nth j muls 0)) (seq 0 (length muls)) (f_steps fac) (fun _ => true) Fo4 (fun _ _ _ _ => eq_refl)) as Q.
      assert (filter (fun _ : nat => true) (seq 0 (length muls)) = seq 0 (length muls)) as Hft.
      { generalize (seq 0 (length muls)). intros l. induction l as [|z l IHl]; [reflexivity|]. cbn. now rewrite IHl. }
      rewrite Hft in Q. rewrite Q. f_equal. subst rest. rewrite map_map. f_equal. f_equal.
      apply filter_ext_in. intros j Hj. apply in_seq in Hj. apply Bool.eq_iff_eq_true. cbn [andb].
      rewrite Bool.negb_true_iff. unfold unfactored_terms.
      assert (HU : forall ls (z : bits), bit (fold_left (fun z (s : step) => N.ldiff z (snd s)) ls z) j = true <->
                 bit z j = true /\ existsb (fun s : step => bit (snd s) j) ls = false).
      { clear. induction ls as [|s ls IH]; intros z; cbn [fold_left existsb]; [tauto|].
        rewrite IH, bit_ldiff, Bool.andb_true_iff, Bool.negb_true_iff, Bool.orb_false_iff. tauto. }
      rewrite HU, bit_fill, Nat.ltb_lt. intuition lia. }
  rewrite E1. cbn [bind].
  assert (Nall : (sl ++ non_muls) ++ rest <> []).
  { intros H. apply app_eq_nil in H as [H _]. apply app_eq_nil in H as [H _]. revert H. apply N1. now right. }
  rewrite <- Er. clear Er Hrest. destruct Gall as [G I T V].
  destruct ((sl ++ non_muls) ++ rest) as [|x [|y all]] eqn:Eall; [congruence| |].
  - exists g1, n1, x. split; [reflexivity|]. split; [assumption|]. split; [apply I; now left|]. split; [apply T; now left|].
    intros A r C. rewrite <- (V A r C). cbn [map]. now rewrite sum_one.
  - pose proof (gr_prog _ _ _ _ _ _ G) as P1.
    destruct (grown_push (TY := TY) b g1 (l1 ++ n1) l2 OAdd (TScalar u) (x :: y :: all) P1 I) as (g2 & E2 & G2 & O2 & T2 & V2).
    { apply fits_comm; [reflexivity|assumption|cbn; lia|assumption]. }
    rewrite E2. cbn [bind fst snd]. exists g2, (n1 ++ [g_next g1]), (g_next g1). split; [now rewrite <- app_assoc|].
    split; [eapply grown_trans; eassumption|]. split; [rewrite !in_app_iff; cbn; tauto|]. split; [assumption|].
    intros A r C. rewrite (app_assoc l1) in C. rewrite (V2 A r C), sem_add.
    change (sum A (map r (x :: y :: all)) = dadd A (sum A (map r muls)) (sum A (map r non_muls))).
    apply V. eapply grown_cons; eassumption.
Qed.

End Factor.

Section Pass.
Context {TY : typing}.

Lemma factorize_one_spec b : step_spec (TY := TY) b (factorize_one b).
Proof.
  intros g ops l add P Q Hadd. unfold factorize_one.
  destruct (is_add (op_of g add)) eqn:Ea; [|now apply step_skip].
  assert (Eo : op_of g add = OAdd) by (destruct (op_of g add); congruence || discriminate).
  pose proof P as [B O]. destruct (bo_scalar _ _ _ B add Hadd) as (u & Tu & Nu & Hu); [now rewrite Eo|].
  apply in_split in Hadd as (l1 & l2 & ->).
  unfold separate_muls. set (muls := filter (fun v => is_mul (op_of g v)) (args g add)).
  set (non_muls := filter (fun v => negb (is_mul (op_of g v))) (args g add)).
  destruct (Nat.leb_spec (length muls) 1) as [L|L]; [now apply step_skip|].
  destruct (initialize_spec g muls) as [Ei|(masks & Ei & L1 & L2 & L3 & Hm)]; rewrite Ei; cbn [bind]; [now apply step_skip|].
  destruct (compute_ranked_spec masks (length (assign_indices g muls)) 4) as (facs & Ec & Fc & _); [assumption|lia|].
  rewrite Ec. cbn [bind]. destruct facs as [|fac facs]; [now apply step_skip|].
  assert (Hin : forall x, In x (args g add) -> In x l1) by (intros x Hx; eapply operands_before; eassumption).
  assert (Hmul : forall m, In m muls -> In m l1 /\ op_of g m = OMul /\ ty_of g m = TScalar u).
  { intros m Hmm. apply filter_In in Hmm as [Hmm Eb]. split; [now apply Hin|]. split; [|now apply Hu].
    destruct (op_of g m); congruence || discriminate. }
  assert (Hargs : forall m x, In m muls -> In x (args g m) -> In x l1 /\ ty_of g x = TScalar u).
  { intros m x Hmm Hx. destruct (Hmul m Hmm) as (Hml & Emo & Etm).
    assert (Hmall : In m (l1 ++ add :: l2)) by (apply in_or_app; now left).
    destruct (bo_scalar _ _ _ B m Hmall) as (u' & Tu' & _ & Hu'); [now rewrite Emo|]. split.
    - apply in_split in Hml as (k1 & k2 & Ek). subst l1. rewrite <- app_assoc in P. cbn [app] in P.
      apply in_or_app. left. eapply operands_before; eassumption.
    - rewrite (Hu' x Hx). congruence. }
  destruct (factorize_sum_spec (TY := TY) b g l1 (add :: l2) u (assign_indices g muls) muls P Nu (assign_nodup g muls))
    with (masks := masks) (non_muls := non_muls) (fac := fac) (ops := ops) as (g1 & new & v & E1 & G1 & I1 & T1 & V1).
  - intros m Hmm. destruct (Hmul m Hmm) as (H1 & H2 & H3). repeat split; try assumption.
    intros x Hx. apply assign_in. now exists m.
  - intros x Hx. apply assign_in in Hx as (m & Hmm & Hx). now apply (Hargs m).
  - assumption.
  - assumption.
  - assumption.
  - intros j Hj i Hi. now apply (Hm j Hj i).
  - intros E. rewrite E in L. cbn in L. lia.
  - apply Fc. now left.
  - intros x Hx. apply filter_In in Hx as [Hx _]. split; [now apply Hin|now apply Hu].
  - rewrite E1. cbn [bind].
    destruct (replace_grown b g l1 add l2 new g1 v P G1) as (g2 & E2 & P2 & S2).
    + assumption.
    + now rewrite Tu.
    + intros A r C. rewrite (V1 A r C). pose proof (grown_cons _ _ _ _ _ _ A r P G1 C) as C0.
      rewrite (C0 add) by (apply in_or_app; right; now left). rewrite Eo, sem_add.
      rewrite (sum_perm A _ _ (Permutation_map r (filter_split (fun v => is_mul (op_of g v)) (args g add)))).
      rewrite map_app. apply sum_app.
    + rewrite E2. cbn [bind]. exists g2, (ops ++ new), ((l1 ++ new) ++ add :: l2).
      split; [reflexivity|]. split; [assumption|]. split; [now apply grown_perm|]. split; [assumption|].
      intros x. rewrite !in_app_iff. tauto.
Qed.

Theorem factorize_sums_in_block_spec g b ops : program TY g b ops ->
  exists g' out, factorize_sums_in_block b (g, ops) = Ok (g', out) /\ program TY g' b out /\ sim g ops g' out.
Proof. intros P. apply (pass_spec b (factorize_one b)); [apply factorize_one_spec|assumption]. Qed.

Theorem factorize_sums_spec b passes : forall g ops, program TY g b ops ->
  exists g' out, factorize_sums passes b (g, ops) = Ok (g', out) /\ program TY g' b out /\ sim g ops g' out.
Proof.
  induction passes as [|n IH]; intros g ops P; cbn [factorize_sums].
  - exists g, ops. split; [reflexivity|]. split; [assumption|apply sim_refl].
  - destruct (factorize_sums_in_block_spec g b ops P) as (g1 & o1 & E1 & P1 & S1). rewrite E1. cbn [bind].
    destruct (merge_multiplications_spec g1 b o1 P1) as (g2 & o2 & E2 & P2 & S2 & _). rewrite E2. cbn [bind].
    destruct (eliminate_needless_copies_spec g2 b o2 P2) as (g3 & o3 & E3 & P3 & S3 & _). rewrite E3. cbn [bind].
    destruct (eliminate_duplicates_spec g3 b o3 P3) as (g4 & o4 & E4 & P4 & S4 & _). rewrite E4. cbn [bind].
    destruct (IH g4 o4 P4) as (g5 & o5 & E5 & P5 & S5).
    exists g5, o5. split; [assumption|]. split; [assumption|].
    eapply sim_trans; [exact S1|]. eapply sim_trans; [exact S2|]. eapply sim_trans; [exact S3|]. eapply sim_trans; eassumption.
Qed.
End Pass.
