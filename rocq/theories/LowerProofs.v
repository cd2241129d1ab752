(** Proofs about the lowering. *)
From Coq Require Import String List Arith ZArith Reals Bool Lra Lia Permutation.
From Verif Require Import Outcome ZeroProofs RationalModel RationalSpec ExprModel BuildModel FuncModel MapModel DerivModel ExprSpec
  NumProofs ValProofs ExprProofs BuildProofs FuncProofs OrderProofs SumProofs DerivFnProofs IrModel IrSpec IrProofs LowerModel LowerSpec.
Import ListNotations.
Open Scope outcome_scope.
Open Scope nat_scope.

Lemma numeric_type_inv g v t : numeric_type g v = Ok t -> ty_of g v = TScalar t.
Proof. unfold numeric_type. destruct (ty_of g v); try discriminate. now intros [= ->]. Qed.
Lemma numeric_type_of g v t : ty_of g v = TScalar t -> numeric_type g v = Ok t.
Proof. unfold numeric_type. now intros ->. Qed.
Lemma max_l a b : numeric_rank a <= numeric_rank (numeric_max a b).
Proof. destruct a, b; cbn; lia. Qed.
Lemma max_r a b : numeric_rank b <= numeric_rank (numeric_max a b).
Proof. destruct a, b; cbn; lia. Qed.
Lemma rank_le_trans a b c : numeric_rank a <= numeric_rank b -> numeric_rank b <= numeric_rank c -> numeric_rank a <= numeric_rank c.
Proof. lia. Qed.
Lemma rank_bool t : numeric_rank t <= numeric_rank NBool -> t = NBool.
Proof. destruct t; cbn; [auto|lia|lia]. Qed.
Lemma rank_float t : numeric_rank t <= numeric_rank NFloat.
Proof. destruct t; cbn; lia. Qed.

Lemma trunc_IZR z : trunc_R (IZR z) = IZR z.
Proof.
  unfold trunc_R. destruct (Rle_dec 0 (IZR z)); [now rewrite Int_part_IZR|].
  rewrite <- (opp_IZR z), Int_part_IZR, opp_IZR. lra.
Qed.
Lemma trunc_bool x : (x = 0 \/ x = 1)%R -> trunc_R x = x.
Proof. intros [->| ->]; [exact (trunc_IZR 0)|exact (trunc_IZR 1)]. Qed.

Lemma float_free_ident : forall k e, float_free e = true -> ident k e = true -> k = e.
Proof.
  assert (L : forall l, Forall (fun k => forall e, float_free e = true -> ident k e = true -> k = e) l ->
    forall m, forallb float_free m = true -> all2 ident l m = true -> l = m).
  { induction 1 as [|a l H _ IH]; intros [|b m] Hm E; cbn in E; try discriminate; auto.
    cbn in Hm. apply andb_prop in E as [E1 E2], Hm as [M1 M2]. f_equal; auto. }
  induction k as [k IH] using expr_ind2. intros e He E.
  destruct k, e; cbn [ident] in E; try discriminate; cbn [float_free] in He; rewrite ?andb_true_iff in E; rewrite ?andb_true_iff in He;
    repeat match goal with H : _ /\ _ |- _ => destruct H end;
    repeat match goal with
    | H : String.eqb _ _ = true |- _ => apply String.eqb_eq in H
    | H : (_ =? _)%Z = true |- _ => apply Z.eqb_eq in H
    end; subst; f_equal; auto.
  - unfold rat_eqb in E. apply andb_prop in E as [E1 E2]. apply Z.eqb_eq in E1. apply Z.eqb_eq in E2.
    destruct r, r0; cbn in *; congruence.
  - destruct c, c0; cbn in E; congruence.
  - apply var_ident_eq; auto.
  - apply fn_name_inj; auto.
  - apply eqb_prop; auto.
  - destruct o, o0; cbn in *; congruence.
Qed.

Section Lowering.
Variable I : impl.
Variable n : nat.
Variable K : ids.
Variable s : ExprSpec.env.
Variable inp : load_src -> R.
Variable junk : op -> list R -> R.
Hypothesis Hinp : inputs_agree K s inp.
Notation A := (real_algebra inp junk).
Notation T := lower_typing.

(** The expressions whose value we keep track of. *)
Variable good : expr -> Prop.
(** Whether all casts are to larger types. *)
Variable up : Prop.

Definition scalar (g : graph) (v : name) : Prop := exists t, ty_of g v = TScalar t.
Definition holds (st : lstate) (P : (name -> R) -> Prop) : Prop :=
  forall r : name -> R, @consistent A r (l_graph st) (l_ops st) -> P r.
(** [v] is a value of the program, and [w] says what it is. *)
Definition has_value (st : lstate) (v : name) (w : val) : Prop := holds st (fun r => forall x, w = Rv x -> r v = x).
Definition valued (st : lstate) (v : name) (e : expr) : Prop :=
  In v (l_ops st) /\ scalar (l_graph st) v /\ (is_boolean e = true -> ty_of (l_graph st) v = TScalar NBool) /\
  (good e -> has_value st v (eval s e)).
Definition cast_entry (st : lstate) (c : (name * numeric) * name) : Prop :=
  In (snd c) (l_ops st) /\ ty_of (l_graph st) (snd c) = TScalar (snd (fst c)) /\
  op_of (l_graph st) (snd c) = OCast (snd (fst c)) /\ args (l_graph st) (snd c) = [fst (fst c)].

(** [one_type] without the direction of casts. *)
Definition one_type' (g : graph) (v : name) : Prop :=
  match op_of g v with OCast _ => up -> one_type g v | _ => one_type g v end.

(** The operations that expressions become. *)
Definition lowered_op (o : op) : bool :=
  match o with
  | OAdd | OMul | ODiv | OCompare _ | OCond | OCast _ | OCallStd _ => true
  | OLoad (LCustomArg _) => false
  | OLoad _ => true
  | _ => false
  end.

Record linv (st : lstate) : Prop := {
  li_prog : program T (l_graph st) 0 (l_ops st);
  li_one : forall v, In v (l_ops st) -> one_type' (l_graph st) v;
  li_bool : holds st (fun r => forall v, In v (l_ops st) -> ty_of (l_graph st) v = TScalar NBool -> (r v = 0 \/ r v = 1)%R);
  li_cache : Forall (fun kv => valued st (snd kv) (fst kv)) (l_cache st);
  li_casts : Forall (cast_entry st) (l_casts st);
  li_zero : zero (l_graph st);
  li_all : forall v, v < g_next (l_graph st) -> In v (l_ops st);
  li_made : forall v, In v (l_ops st) -> lowered_op (op_of (l_graph st) v) = true \/ exists u k, op_of (l_graph st) v = OSave u k;
  li_operand : forall v a, In v (l_ops st) -> In a (args (l_graph st) v) -> scalar (l_graph st) a
}.

Definition same_at (g g' : graph) (v : name) : Prop :=
  op_of g' v = op_of g v /\ ty_of g' v = ty_of g v /\ args g' v = args g v.
Definition extends (st st' : lstate) : Prop :=
  (exists l, l_ops st' = l_ops st ++ l /\ forall v u k, In v l -> op_of (l_graph st') v <> OSave u k) /\
  forall v, In v (l_ops st) -> same_at (l_graph st) (l_graph st') v.

Lemma ext_refl st : extends st st.
Proof. split; [exists []; rewrite app_nil_r; split; [reflexivity|intros v u k []]|]. intros; repeat split. Qed.
Lemma ext_in st st' v : extends st st' -> In v (l_ops st) -> In v (l_ops st').
Proof. intros [[l [E _]] _] H. rewrite E. apply in_or_app. now left. Qed.
Lemma ext_trans a b c : extends a b -> extends b c -> extends a c.
Proof.
  intros X Y. destruct X as [[l [E N]] H], Y as [[m [F M]] G]. split.
  - exists (l ++ m). split; [now rewrite F, E, app_assoc|]. intros v u k Hv. apply in_app_or in Hv as [Hv|Hv]; [|auto].
    assert (Hb : In v (l_ops b)) by (rewrite E; apply in_or_app; now right).
    destruct (G v Hb) as [-> _]. auto.
  - intros v Hv. assert (Hv' : In v (l_ops b)) by (rewrite E; apply in_or_app; now left).
    destruct (H v Hv) as (A1 & A2 & A3), (G v Hv') as (B1 & B2 & B3). repeat split; congruence.
Qed.
Lemma ext_ty st st' v : extends st st' -> In v (l_ops st) -> ty_of (l_graph st') v = ty_of (l_graph st) v.
Proof. intros [_ H] Hv. apply (H v Hv). Qed.
Lemma ext_consistent st st' (r : name -> R) : extends st st' ->
  @consistent A r (l_graph st') (l_ops st') -> @consistent A r (l_graph st) (l_ops st).
Proof.
  intros E C v Hv. destruct (proj2 E v Hv) as (E1 & _ & E3). rewrite <- E1, <- E3. apply C. eapply ext_in; eauto.
Qed.
Lemma ext_holds st st' P : extends st st' -> holds st P -> holds st' P.
Proof. intros E H r C. apply H. eapply ext_consistent; eauto. Qed.
Lemma ext_valued st st' v e : extends st st' -> valued st v e -> valued st' v e.
Proof.
  intros E (H1 & (t & H2) & HB & H3). split; [eapply ext_in; eauto|]. split; [exists t; now rewrite (ext_ty st st')|].
  split; [intros X; rewrite (ext_ty st st') by assumption; auto|].
  intros G. eapply ext_holds; [eassumption|]. now apply H3.
Qed.
Lemma ext_cast st st' c : extends st st' -> cast_entry st c -> cast_entry st' c.
Proof.
  intros E (H1 & H2 & H3 & H4). destruct (proj2 E _ H1) as (E1 & E2 & E3).
  split; [eapply ext_in; eauto|]. repeat split; congruence.
Qed.

Lemma args_of_in st v a : linv st -> In v (l_ops st) -> In a (args (l_graph st) v) -> In a (l_ops st).
Proof. intros L. destruct (li_prog _ L) as [_ O]. eapply args_in; eauto. Qed.

Lemma one_type_ext st st' v : linv st -> extends st st' -> In v (l_ops st) ->
  one_type' (l_graph st) v -> one_type' (l_graph st') v.
Proof.
  intros L E Hv. destruct (proj2 E v Hv) as (E1 & E2 & E3). unfold one_type', one_type. rewrite E1, E2, E3.
  assert (M : map (ty_of (l_graph st')) (args (l_graph st) v) = map (ty_of (l_graph st)) (args (l_graph st) v)).
  { apply map_ext_in. intros a Ha. apply (ext_ty st st'); [assumption|]. eapply args_of_in; eauto. }
  now rewrite M.
Qed.

(** ** Pushing operations *)
Lemma push_ok st o t l v st' : linv st -> incl l (l_ops st) -> (forall a, In a l -> scalar (l_graph st) a) ->
  op_ok (T := T) (l_graph st) o (TScalar t) l ->
  lowered_op o = true ->
  (forall g, (forall a, In a l -> ty_of g a = ty_of (l_graph st) a) -> op_of g v = o -> ty_of g v = TScalar t ->
     Permutation (args g v) l -> (commutative o = false -> args g v = l) -> one_type' g v) ->
  (t = NBool -> holds st (fun r => (real_sem inp junk o (map r l) = 0 \/ real_sem inp junk o (map r l) = 1)%R)) ->
  push o t l st = Ok (v, st') ->
  linv st' /\ extends st st' /\ In v (l_ops st') /\ ty_of (l_graph st') v = TScalar t /\
  holds st' (fun r => r v = real_sem inp junk o (map r l)) /\
  l_cache st' = l_cache st /\ l_casts st' = l_casts st /\
  op_of (l_graph st') v = o /\ args (l_graph st') v = maybe_sort o l.
Proof.
  intros L Hl Hsc Ok Hs H1 Hb H. pose proof L as [P O B C X Z Al Md Sc]. unfold push in H. binv H. destruct x as [g' m].
  injection H as <- <-. cbn [fst snd] in *.
  assert (P0 : program T (l_graph st) 0 (l_ops st ++ [])) by now rewrite app_nil_r.
  destruct (push_any_step (l_graph st) 0 (l_ops st) [] o (TScalar t) l P0 Hl Ok) as (g2 & E2 & P2 & S2 & N2 & O2 & T2 & A2 & Old).
  rewrite E2 in E. injection E as <- <-. pose proof (zero_push _ _ _ _ _ _ Z E2) as Z2. set (v := g_next (l_graph st)) in *.
  assert (Fr : forall w, In w (l_ops st) -> w <> v).
  { intros w Hw ->. destruct P as [Bk _]. pose proof (bo_fresh _ _ _ Bk _ Hw). unfold v in *. lia. }
  set (st' := mk_ls g2 (l_ops st ++ [v]) (l_cache st) (l_casts st)).
  assert (E : extends st st').
  { split; [exists [v]; split; [reflexivity|intros w u k [<-|[]]; cbn [l_graph st']; rewrite O2; intros ->; discriminate]|].
    intros w Hw. apply Old. now apply Fr. }
  assert (In_v : In v (l_ops st')) by (apply in_or_app; right; now left).
  assert (Val : holds st' (fun r => r v = real_sem inp junk o (map r l))).
  { intros r Cr. rewrite (Cr v In_v). cbn [l_graph st']. rewrite O2, A2. apply (sem_maybe_sort A r o l). }
  assert (L' : linv st').
  { split.
    - assumption.
    - intros w Hw. apply in_app_or in Hw as [Hw|[<-|[]]].
      + apply (one_type_ext st st' w L E Hw). now apply O.
      + apply H1; auto; cbn [l_graph st'].
        * intros a Ha. apply (Old a). apply Fr. now apply Hl.
        * rewrite A2. apply maybe_sort_perm.
        * intros Cm. rewrite A2. unfold maybe_sort. now rewrite Cm.
    - intros r Cr w Hw Tw. apply in_app_or in Hw as [Hw|[<-|[]]].
      + pose proof (ext_consistent st st' r E Cr) as C0. apply (B r C0 w Hw).
        rewrite <- Tw. cbn [l_graph st']. symmetry. now apply (Old w), Fr.
      + cbn [l_graph st'] in Tw. rewrite T2 in Tw. injection Tw as Tw. rewrite (Val r Cr).
        apply (Hb Tw r). exact (ext_consistent st st' r E Cr).
    - cbn [l_cache st']. eapply Forall_impl; [|exact C]. intros [k w]. now apply ext_valued.
    - cbn [l_casts st']. eapply Forall_impl; [|exact X]. intros c. now apply ext_cast.
    - exact Z2.
    - cbn [l_graph st' l_ops]. intros w Hw. rewrite N2 in Hw. apply in_or_app. destruct (Nat.eq_dec w v) as [->|Nw]; [right; now left|left; apply Al; unfold v in *; lia].
    - intros w Hw. apply in_app_or in Hw as [Hw|[<-|[]]]; cbn [l_graph st'].
      + destruct (Old w (Fr w Hw)) as (-> & _). auto.
      + left. now rewrite O2.
    - intros w a Hw Ha. cbn [l_graph st'] in *. assert (Sa : scalar (l_graph st) a /\ In a (l_ops st)).
      { apply in_app_or in Hw as [Hw|[<-|[]]].
        - destruct (Old w (Fr w Hw)) as (_ & _ & Ea). rewrite Ea in Ha. split; [now apply (Sc w)|now apply (args_of_in st w)].
        - rewrite A2 in Ha. apply (Permutation_in a (maybe_sort_perm o l)) in Ha. auto. }
      destruct Sa as [(u & Hu) Ia]. exists u. destruct (Old a (Fr a Ia)) as (_ & -> & _). exact Hu. }
  repeat (split; [assumption|]). repeat split; assumption.
Qed.

(** ** Casts *)
Definition cast_value (u t : numeric) (x : R) : R := if numeric_dec u t then x else real_sem inp junk (OCast t) [x].
Lemma cast_value_up u t x : numeric_rank u <= numeric_rank t -> (u = NBool -> (x = 0 \/ x = 1)%R) -> cast_value u t x = x.
Proof.
  intros H B. unfold cast_value. destruct (numeric_dec u t); [reflexivity|].
  destruct u, t; cbn in *; try congruence; try lia. apply trunc_bool. auto.
Qed.

Lemma find_cast_in k l v : find_cast k l = Some v -> In (k, v) l.
Proof.
  induction l as [|[k' w] l IH]; [discriminate|]. cbn [find_cast]. destruct (cast_eqb k' k) eqn:E.
  - intros [= ->]. left. unfold cast_eqb in E. apply andb_true_iff in E as [E1 E2]. apply Nat.eqb_eq in E1.
    destruct k as [a b], k' as [a' b']; cbn in *. destruct (numeric_dec b' b); congruence.
  - intros H. right. auto.
Qed.

Lemma maybe_cast_gen st v t u c st' : linv st -> In v (l_ops st) -> ty_of (l_graph st) v = TScalar u ->
  (u <> t -> t <> NBool) -> (up -> numeric_rank u <= numeric_rank t) ->
  maybe_cast v t st = Ok (c, st') ->
  linv st' /\ extends st st' /\ In c (l_ops st') /\ ty_of (l_graph st') c = TScalar t /\
  holds st' (fun r => r c = cast_value u t (r v)) /\ l_cache st' = l_cache st.
Proof.
  intros L Hv Hu Nb Up H. unfold maybe_cast in H. rewrite (numeric_type_of _ _ _ Hu) in H. cbn [bind] in H.
  destruct (numeric_dec u t) as [->|N].
  { injection H as <- <-. repeat (split; auto using ext_refl). intros r _. unfold cast_value.
    destruct (numeric_dec t t); congruence. }
  destruct (find_cast (v, t) (l_casts st)) as [d|] eqn:F.
  { injection H as <- <-. apply find_cast_in in F. pose proof (li_casts _ L) as X. rewrite Forall_forall in X.
    destruct (X _ F) as (X1 & X2 & X3 & X4). cbn [fst snd] in *.
    repeat (split; auto using ext_refl). intros r Cr. rewrite (Cr d X1), X3, X4. unfold cast_value.
    destruct (numeric_dec u t); [congruence|]. reflexivity. }
  binv H. destruct x as [c' st1]. injection H as <- <-.
  apply push_ok in E as (L1 & E1 & I1 & T1 & V1 & C1 & X1 & O1 & A1).
  - assert (E2 : extends st (mk_ls (l_graph st1) (l_ops st1) (l_cache st1) ((v, t, c') :: l_casts st1))) by exact E1.
    split; [|split; [exact E2|split; [exact I1|split; [exact T1|split; [|exact C1]]]]].
    + destruct L1. split; try assumption. cbn [l_casts]. constructor; [|assumption]. repeat split; auto.
    + intros r Cr. rewrite (V1 r Cr). unfold cast_value. destruct (numeric_dec u t); [congruence|reflexivity].
  - assumption.
  - intros a [<-|[]]. assumption.
  - intros a [<-|[]]. now exists u.
  - split.
    + reflexivity.
    + discriminate.
    + discriminate.
    + reflexivity.
    + repeat split; try discriminate. intros [= ->]. now apply Nb.
  - reflexivity.
  - intros g Hg Ho _ _ Ha. unfold one_type', one_type. rewrite Ho, (Ha eq_refl). intros U. exists u. split.
    + cbn. rewrite (Hg v) by now left. now rewrite Hu.
    + auto.
  - intros ->. now apply Nb in N.
Qed.

Lemma maybe_cast_ok st v t u c st' : linv st -> In v (l_ops st) -> ty_of (l_graph st) v = TScalar u ->
  numeric_rank u <= numeric_rank t -> maybe_cast v t st = Ok (c, st') ->
  linv st' /\ extends st st' /\ In c (l_ops st') /\ ty_of (l_graph st') c = TScalar t /\
  holds st' (fun r => r c = r v) /\ l_cache st' = l_cache st.
Proof.
  intros L Hv Hu Hr H. destruct (maybe_cast_gen st v t u c st' L Hv Hu) as (L' & E & I' & T' & V & C); auto.
  { intros N ->. now apply rank_bool in Hr. }
  repeat (split; [assumption|]). split; [|assumption].
  intros r Cr. rewrite (V r Cr). apply cast_value_up; [assumption|]. intros ->.
  apply (li_bool _ L r (ext_consistent _ _ r E Cr) v Hv Hu).
Qed.

(** ** Lists *)
Lemma lmap_ok {X} (f : X -> lowering) (Q : lstate -> name -> X -> Prop) (l : list X) :
  (forall st st' v a, extends st st' -> Q st v a -> Q st' v a) ->
  forall st vs st', linv st ->
  (forall a st1 v st2, In a l -> linv st1 -> extends st st1 -> f a st1 = Ok (v, st2) -> linv st2 /\ extends st1 st2 /\ Q st2 v a) ->
  lmap f l st = Ok (vs, st') -> linv st' /\ extends st st' /\ Forall2 (Q st') vs l.
Proof.
  intros HQ. induction l as [|a l IH]; intros st vs st' L Hf H; cbn [lmap] in H.
  - injection H as <- <-. split; [assumption|]. split; [apply ext_refl|constructor].
  - binv H. binv H. injection H as <- <-. destruct x as [v st1], x0 as [ws st2]. cbn [fst snd] in *.
    apply Hf in E as (L1 & E1 & Q1); [|now left|assumption|apply ext_refl].
    apply IH in E0 as (L2 & E2 & Q2); [|assumption|].
    + split; [assumption|]. split; [eapply ext_trans; eauto|]. constructor; [eapply HQ; eauto|assumption].
    + intros b st3 w st4 Hb L3 X3 F3. apply Hf in F3; auto; [now right|eapply ext_trans; eauto].
Qed.

Lemma promoted_spec g l : forall t u, promoted g l t = Ok u ->
  numeric_rank t <= numeric_rank u /\ Forall (fun v => exists w, ty_of g v = TScalar w /\ numeric_rank w <= numeric_rank u) l.
Proof.
  induction l as [|v l IH]; intros t u H; cbn [promoted] in H.
  - injection H as ->. split; [lia|constructor].
  - binv H. apply numeric_type_inv in E. apply IH in H as [H1 H2]. pose proof (max_l t x). pose proof (max_r t x).
    split; [lia|]. constructor; [|assumption]. exists x. split; [assumption|lia].
Qed.

(** create_add_or_mul *)
Lemma create_ok o l st v st' : (o = OAdd \/ o = OMul) -> linv st -> incl l (l_ops st) -> 2 <= length l ->
  create_add_or_mul o l st = Ok (v, st') ->
  linv st' /\ extends st st' /\ In v (l_ops st') /\ scalar (l_graph st') v /\
  holds st' (fun r => r v = real_sem inp junk o (map r l)).
Proof.
  intros Ho L Hl Hn H. unfold create_add_or_mul in H. binv H. rename x into t. binv H. destruct x as [cs st1].
  cbn [fst snd] in *.
  destruct (promoted_spec _ _ _ _ E) as [Rt Tl]. rewrite Forall_forall in Tl.
  apply (lmap_ok _ (fun st c a => In c (l_ops st) /\ ty_of (l_graph st) c = TScalar t /\ holds st (fun r => r c = r a))) in E0
    as (L1 & E1 & Q1).
  - assert (Icl : incl cs (l_ops st1)).
    { clear - Q1. induction Q1 as [|c a cs l H Q IH]; intros d Hd; [destruct Hd|]. destruct Hd as [<-|Hd]; [apply H|auto]. }
    assert (Ty : forall c, In c cs -> ty_of (l_graph st1) c = TScalar t).
    { clear - Q1. induction Q1 as [|c a cs l H Q IH]; intros d Hd; [destruct Hd|]. destruct Hd as [<-|Hd]; [apply H|auto]. }
    assert (Len : length cs = length l) by (clear - Q1; induction Q1; cbn; auto).
    assert (Nb : t <> NBool). { intros ->. cbn in Rt. lia. }
    assert (Cm : commutative o = true) by (destruct Ho as [->| ->]; reflexivity).
    assert (Mp : forall r : name -> R, @consistent A r (l_graph st1) (l_ops st1) -> map r cs = map r l).
    { intros r C1. clear - Q1 C1. induction Q1 as [|c a cs l H Q IH]; [reflexivity|]. cbn [map]. f_equal; [|assumption]. now apply H. }
    destruct cs as [|c cs]; [cbn in Len; lia|].
    apply push_ok in H as (L2 & E2 & I2 & T2 & V2 & _).
    + split; [assumption|]. split; [eapply ext_trans; eauto|]. split; [assumption|]. split; [now exists t|].
      intros r Cr. rewrite (V2 r Cr). f_equal.
      apply Mp. exact (ext_consistent _ _ r E2 Cr).
    + assumption.
    + assumption.
    + intros a Ha. exists t. now apply Ty.
    + split.
      * destruct Ho as [->| ->]; reflexivity.
      * intros _. lia.
      * intros _. exists t. auto.
      * cbn [map]. rewrite (Ty c) by now left. destruct Ho as [->| ->]; reflexivity.
      * destruct Ho as [->| ->]; repeat split; discriminate.
    + destruct Ho as [->| ->]; reflexivity.
    + intros g Hg Ho' Ht' Hp _. unfold one_type', one_type. rewrite Ho'.
      assert (F : Forall (fun u => u = TScalar t) (map (ty_of g) (args g v))).
      { apply Forall_map. rewrite Forall_forall. intros a Ha. apply (Permutation_in a Hp) in Ha. rewrite (Hg a Ha). now apply Ty. }
      destruct Ho as [->| ->]; exists t; auto.
    + intros ->. now destruct Nb.
  - intros sa sb c a X (H1 & H2 & H3). split; [eapply ext_in; eauto|]. split; [now rewrite (ext_ty sa sb)|].
    eapply ext_holds; eauto.
  - assumption.
  - intros a sa c sb Ha La Xa Fa. destruct (Tl a Ha) as (w & Tw & Rw).
    assert (Ia : In a (l_ops sa)) by (eapply ext_in; eauto).
    apply maybe_cast_ok with (u := w) in Fa as (B1 & B2 & B3 & B4 & B5 & _); auto.
    now rewrite (ext_ty st sa) by auto.
Qed.

(** ** Repeated squaring *)
Definition float_in (st : lstate) (v : name) : Prop := In v (l_ops st) /\ ty_of (l_graph st) v = TScalar NFloat.
Lemma float_ext st st' v : extends st st' -> float_in st v -> float_in st' v.
Proof. intros E [H1 H2]. split; [eapply ext_in; eauto|now rewrite (ext_ty st st')]. Qed.

Lemma push_mul_ok st a b v st' : linv st -> float_in st a -> float_in st b ->
  push OMul NFloat [a; b] st = Ok (v, st') ->
  linv st' /\ extends st st' /\ float_in st' v /\ holds st' (fun r => r v = (r a * r b)%R).
Proof.
  intros L [Ia Ta] [Ib Tb] H. apply push_ok in H as (L2 & E2 & I2 & T2 & V2 & _).
  - split; [assumption|]. split; [assumption|]. split; [now split|]. intros r Cr. rewrite (V2 r Cr). cbn. lra.
  - assumption.
  - intros x [<-|[<-|[]]]; assumption.
  - intros x [<-|[<-|[]]]; now exists NFloat.
  - split; try reflexivity.
    + intros _. exists NFloat. repeat split; [discriminate|]. intros x [<-|[<-|[]]]; assumption.
    + cbn [map]. rewrite Ta. reflexivity.
    + repeat split; discriminate.
  - reflexivity.
  - intros g Hg Ho' Ht' Hp _. unfold one_type', one_type. rewrite Ho'. exists NFloat. split; [assumption|]. split; [discriminate|].
    apply Forall_map. rewrite Forall_forall. intros x Hx. apply (Permutation_in x Hp) in Hx. rewrite (Hg x Hx).
    destruct Hx as [<-|[<-|[]]]; assumption.
  - discriminate.
Qed.

Lemma squaring_ok p : forall base result st v st', linv st -> float_in st base ->
  (forall r, result = Some r -> float_in st r) ->
  squaring base p result st = Ok (v, st') ->
  linv st' /\ extends st st' /\ float_in st' v /\
  holds st' (fun r => r v = (match result with Some a => r a | None => 1 end * r base ^ Pos.to_nat p)%R).
Proof.
  induction p as [p IH|p IH|]; intros base result st v st' L Hb Hr H; cbn [squaring] in H.
  - binv H. destruct x as [a st1]. binv H. destruct x as [b st2]. cbn [fst snd] in *.
    assert (F1 : linv st1 /\ extends st st1 /\ float_in st1 a /\
      holds st1 (fun r => r a = (match result with Some a => r a | None => 1 end * r base)%R)).
    { destruct result as [r0|].
      - binv E. destruct (proj2 Hb). apply numeric_type_inv in E1. destruct Hb as [Hb1 Hb2]. rewrite Hb2 in E1. injection E1 as <-.
        apply push_mul_ok in E; auto. split; auto.
      - injection E as <- <-. repeat (split; auto using ext_refl). intros r _. lra. }
    destruct F1 as (L1 & X1 & Fa & Va).
    assert (Fb : float_in st1 base) by (eapply float_ext; eauto).
    binv E0. apply numeric_type_inv in E1. destruct Fb as [Fb1 Fb2]. rewrite Fb2 in E1. injection E1 as <-.
    apply push_mul_ok in E0 as (L2 & X2 & Fb' & Vb); [|assumption|now split|now split].
    apply IH in H as (L3 & X3 & Fv & Vv); [|assumption|assumption|].
    + split; [assumption|]. split; [eapply ext_trans; [|eapply ext_trans]; eauto|]. split; [assumption|].
      intros r Cr. rewrite (Vv r Cr). rewrite (Vb r (ext_consistent _ _ r X3 Cr)).
      rewrite (Va r (ext_consistent _ _ r (ext_trans _ _ _ X2 X3) Cr)).
      rewrite Pos2Nat.inj_xI. cbn [Nat.mul]. rewrite Nat.add_0_r. rewrite <- tech_pow_Rmult, pow_add, Rpow_mult_distr. ring.
    + intros r [= <-]. eapply float_ext; eauto.
  - binv H. destruct x as [b st2]. cbn [fst snd] in *. binv E. apply numeric_type_inv in E0. destruct Hb as [Fb1 Fb2].
    rewrite Fb2 in E0. injection E0 as <-.
    apply push_mul_ok in E as (L2 & X2 & Fb' & Vb); [|assumption|now split|now split].
    apply IH in H as (L3 & X3 & Fv & Vv); [|assumption|assumption|].
    + split; [assumption|]. split; [eapply ext_trans; eauto|]. split; [assumption|].
      intros r Cr. rewrite (Vv r Cr). rewrite (Vb r (ext_consistent _ _ r X3 Cr)).
      rewrite Pos2Nat.inj_xO. cbn [Nat.mul]. rewrite Nat.add_0_r. rewrite pow_add, Rpow_mult_distr. ring.
    + intros r ->. eapply float_ext; eauto.
  - destruct result as [r0|].
    + binv H. apply numeric_type_inv in E. destruct Hb as [Fb1 Fb2]. rewrite Fb2 in E. injection E as <-.
      apply push_mul_ok in H as (L2 & X2 & Fb' & Vb); [|assumption|auto|now split].
      repeat (split; [assumption|]). intros r Cr. rewrite (Vb r Cr). change (Pos.to_nat 1) with 1. ring.
    + injection H as <- <-. repeat (split; auto using ext_refl). intros r _. change (Pos.to_nat 1) with 1. ring.
Qed.

(** ** The visitor *)
Hypothesis HI : impl_ok I.
Hypothesis Hs : env_ok s.
Hypothesis good_wf : forall e, good e -> wf s e.
Hypothesis good_child : forall e c, good e -> In c (children e) -> good c.
Hypothesis good_int : forall e z, good e -> in_i64 z -> good (EInt z).
Hypothesis good_neg : forall l a a', good (EMul l) -> In a l -> is_num a = true -> e_neg I n a = Ok a' -> good a'.
Hypothesis good_recip : forall b x nx r, good (EPow b x) -> negative_exponent I x ->
  e_neg I n x = Ok nx -> e_pow I n b nx = Ok r -> good r.
Hypothesis good_base : forall b x, good (EPow b x) -> negative_exponent I x -> is_num x = false -> eval s b <> Rv 0.
Hypothesis good_ident : forall k e, ident k e = true -> good e -> k = e.

Definition rec_ok (rec : expr -> lowering) : Prop :=
  forall e st v st', linv st -> rec e st = Ok (v, st') -> linv st' /\ extends st st' /\ valued st' v e.

Lemma vpow_nat x z : (0 < z)%Z -> vpow (Rv x) (Rv (IZR z)) = Rv (x ^ Z.to_nat z).
Proof.
  intros Hz. destruct z as [|p|p]; try lia. destruct (Req_dec x 0) as [->|Hx].
  - rewrite vpow_zero by (apply (IZR_lt 0); lia). rewrite pow_i by lia. reflexivity.
  - rewrite vpow_int by assumption. reflexivity.
Qed.

Lemma vpow_half_int x z y : (0 < z)%Z -> Z.odd z = true -> vpow (Rv x) (Rv (IZR z / 2)) = Rv y ->
  (0 <= x /\ sqrt x ^ Z.to_nat z = y)%R.
Proof.
  intros Hz Ho H. assert (Pz : (0 < IZR z)%R) by (apply (IZR_lt 0); lia).
  destruct (Rtotal_order 0 x) as [Hx|[Hx|Hx]].
  - split; [lra|]. rewrite vpow_pos in H by assumption. injection H as <-.
    assert (Ps : (0 < sqrt x)%R) by now apply sqrt_lt_R0.
    rewrite <- Rpower_pow by assumption. rewrite <- (Rpower_sqrt x) by assumption. rewrite Rpower_mult. f_equal.
    rewrite INR_IZR_INZ, Z2Nat.id by lia. field.
  - subst x. rewrite vpow_zero in H by lra. injection H as <-. split; [lra|]. rewrite sqrt_0, pow_i by lia. reflexivity.
  - exfalso. rewrite vpow_neg_nonint in H; [discriminate|lra|]. intros [k Hk].
    assert (E : IZR z = IZR (2 * k)) by (rewrite mult_IZR; lra). apply eq_IZR in E. subst z.
    rewrite Z.odd_mul in Ho. discriminate.
Qed.

Lemma push_float_ok st o l v st' : linv st -> incl l (l_ops st) -> (forall a, In a l -> scalar (l_graph st) a) -> commutative o = false ->
  arity_ok o (length l) = true -> TScalar NFloat = ft T o (map (ty_of (l_graph st)) l) ->
  o <> OPhi /\ o <> OJump /\ o <> OCast NBool -> lowered_op o = true ->
  (forall g, op_of g v = o -> args g v = l -> (forall a, In a l -> ty_of g a = ty_of (l_graph st) a) -> one_type' g v) ->
  push o NFloat l st = Ok (v, st') ->
  linv st' /\ extends st st' /\ float_in st' v /\ holds st' (fun r => r v = real_sem inp junk o (map r l)).
Proof.
  intros L Hl Hsc Cm Ar Ft Pl Sv Ot H. apply push_ok in H as (L2 & E2 & I2 & T2 & V2 & _); auto.
  - split; [assumption|]. split; [assumption|]. split; [now split|assumption].
  - split; auto; rewrite Cm; discriminate.
  - discriminate.
Qed.

Lemma vpow_Rv_base w x y : vpow w x = Rv y -> exists b c, w = Rv b /\ x = Rv c.
Proof.
  destruct w as [b| |], x as [c| |]; cbn; try discriminate; eauto. destruct (Rlt_dec 0 c); discriminate.
Qed.

Lemma pow_extract_ok rec b x st o st' : rec_ok rec -> linv st -> pow_extract rec b x st = Ok (o, st') ->
  linv st' /\ extends st st' /\
  match o with
  | None => st' = st
  | Some (base, k) => float_in st' base /\ 1 <= k /\
      (good (EPow b x) -> holds st' (fun r => forall y, eval s (EPow b x) = Rv y -> (r base ^ k)%R = y))
  end.
Proof.
  intros Hr L H. unfold pow_extract in H.
  assert (None_case : Ok (None, st) = Ok (o, st') -> linv st' /\ extends st st' /\
    match o with None => st' = st | Some _ => False end).
  { intros [= <- <-]. split; [assumption|]. split; [apply ext_refl|reflexivity]. }
  assert (Base : forall v c st1 st2, rec b st = Ok (v, st1) -> maybe_cast v NFloat st1 = Ok (c, st2) ->
    linv st2 /\ extends st st2 /\ float_in st2 c /\ (good b -> has_value st2 c (eval s b))).
  { intros v c st1 st2 E1 E2. apply Hr in E1 as (L1 & X1 & I1 & (t & T1) & _ & V1); [|assumption].
    apply maybe_cast_ok with (u := t) in E2 as (L2 & X2 & I2 & T2 & V2 & _); auto using rank_float.
    split; [assumption|]. split; [eapply ext_trans; eauto|]. split; [now split|].
    intros G r Cr y Hy. rewrite (V2 r Cr). apply (V1 G r (ext_consistent _ _ r X2 Cr) y Hy). }
  destruct x; try (apply None_case in H; destruct o as [[]|]; tauto).
  - destruct ((0 <? z) && (z <=? 16))%Z eqn:C; [|apply None_case in H; destruct o as [[]|]; tauto].
    apply andb_true_iff in C as [C1 C2]. apply Z.ltb_lt in C1. apply Z.leb_le in C2.
    binv H. binv H. destruct x as [v st1], x0 as [c st2]. injection H as <- <-. cbn [fst snd] in *.
    destruct (Base _ _ _ _ E E0) as (L2 & X2 & F2 & V2). repeat (split; [assumption|]). split; [lia|].
    intros G r Cr y Hy. cbn [eval] in Hy. destruct (vpow_Rv_base _ _ _ Hy) as (bb & cc & Hb & _). rewrite Hb in Hy.
    rewrite vpow_nat in Hy by assumption. injection Hy as <-. f_equal.
    apply (V2 (good_child _ b G (or_introl eq_refl)) r Cr bb Hb).
  - destruct ((0 <? num r) && (den r =? 2) && (num r <=? 16))%Z eqn:C; [|apply None_case in H; destruct o as [[]|]; tauto].
    apply andb_true_iff in C as [C C3]. apply andb_true_iff in C as [C1 C2]. apply Z.ltb_lt in C1. apply Z.eqb_eq in C2.
    binv H. binv H. binv H. destruct x as [v st1], x0 as [c st2], x1 as [w st3]. injection H as <- <-. cbn [fst snd] in *.
    destruct (Base _ _ _ _ E E0) as (L2 & X2 & F2 & V2).
    apply push_float_ok in E1 as (L3 & X3 & F3 & V3); try reflexivity; auto.
    + split; [assumption|]. split; [eapply ext_trans; eauto|]. split; [assumption|]. split; [lia|].
      intros G q Cq y Hy. cbn [eval] in Hy. unfold rat_val in Hy. rewrite C2 in Hy.
      destruct (vpow_Rv_base _ _ _ Hy) as (bb & cc & Hb & _). rewrite Hb in Hy.
      assert (Od : Z.odd (num r) = true).
      { pose proof (good_wf _ (good_child _ (ERat r) G (or_intror (or_introl eq_refl)))) as W. cbn in W. destruct W as [[W1 W2] _].
        rewrite C2 in W2. destruct (Z.odd (num r)) eqn:Eo; [reflexivity|exfalso].
        rewrite <- Z.negb_even in Eo. apply negb_false_iff, Z.even_spec in Eo. destruct Eo as [k Hk].
        rewrite Hk in W2. rewrite Z.gcd_comm in W2. rewrite Z.gcd_mul_diag_l in W2 by lia. lia. }
      apply vpow_half_int in Hy as [Hnn Hy]; auto.
      rewrite (V3 q Cq). cbn [map real_sem std_value].
      rewrite (V2 (good_child _ b G (or_introl eq_refl)) q (ext_consistent _ _ q X3 Cq) bb Hb).
      destruct (Rle_dec 0 bb); [|contradiction]. exact Hy.
    + intros a [<-|[]]. apply F2.
    + intros a [<-|[]]. exists NFloat. apply F2.
    + repeat split; discriminate.
    + intros g Ho Ha Hg. unfold one_type', one_type. rewrite Ho, Ha. cbn. rewrite (Hg c) by now left. now rewrite (proj2 F2).
Qed.

(** Products and sums of real numbers. *)
Lemma vmul_real a b y pa pb : vmul a b = Rv y -> (forall x, a = Rv x -> pa = x) -> (forall x, b = Rv x -> pb = x) ->
  (pa * pb)%R = y.
Proof.
  intros H Ha Hb. destruct a as [x| |], b as [z| |]; cbn in H; try discriminate.
  - rewrite (Ha x), (Hb z) by reflexivity. congruence.
  - rewrite (Ha x) by reflexivity. destruct (Req_EM_T x 0) as [->|]; [|discriminate]. injection H as <-. ring.
  - rewrite (Hb z) by reflexivity. destruct (Req_EM_T z 0) as [->|]; [|discriminate]. injection H as <-. ring.
Qed.
Lemma vadd_real a b y pa pb : vadd a b = Rv y -> (forall x, a = Rv x -> pa = x) -> (forall x, b = Rv x -> pb = x) ->
  (pa + pb)%R = y.
Proof.
  intros H Ha Hb. destruct a as [x| |], b as [z| |]; cbn in H; try discriminate.
  rewrite (Ha x), (Hb z) by reflexivity. congruence.
Qed.
Lemma prod_app l m : fold_right Rmult 1%R (l ++ m) = (fold_right Rmult 1 l * fold_right Rmult 1 m)%R.
Proof. induction l as [|a l IH]; cbn; [ring|rewrite IH; ring]. Qed.
Lemma prod_repeat x k : fold_right Rmult 1%R (repeat x k) = (x ^ k)%R.
Proof. induction k as [|k IH]; cbn; [reflexivity|now rewrite IH]. Qed.
Lemma map_repeat {X Y} (f : X -> Y) x k : map f (repeat x k) = repeat (f x) k.
Proof. induction k; cbn; congruence. Qed.

Lemma mul_operands_ok rec l : rec_ok rec -> forall st vs st', linv st -> mul_operands rec l st = Ok (vs, st') ->
  linv st' /\ extends st st' /\ incl vs (l_ops st') /\ length l <= length vs /\
  (Forall good l -> holds st' (fun r => forall y, vprod (map (eval s) l) = Rv y -> fold_right Rmult 1%R (map r vs) = y)).
Proof.
  intros Hr. induction l as [|child l IH]; intros st vs st' L H; cbn [mul_operands] in H.
  - injection H as <- <-. split; [assumption|]. split; [apply ext_refl|]. split; [intros a []|]. split; [cbn; lia|].
    intros _ r _ y. cbn. now intros [= <-].
  - binv H. binv H. injection H as <- <-. destruct x as [us st1], x0 as [ws st2]. cbn [fst snd] in *.
    assert (Head : linv st1 /\ extends st st1 /\ incl us (l_ops st1) /\ 1 <= length us /\
      (good child -> holds st1 (fun r => forall y, eval s child = Rv y -> fold_right Rmult 1%R (map r us) = y))).
    { assert (Simple : forall st0, linv st0 -> extends st st0 ->
        (let* v := rec child st0 in Ok ([fst v], snd v)) = Ok (us, st1) ->
        linv st1 /\ extends st st1 /\ incl us (l_ops st1) /\ 1 <= length us /\
        (good child -> holds st1 (fun r => forall y, eval s child = Rv y -> fold_right Rmult 1%R (map r us) = y))).
      { intros st0 L0 X0 E1. binv E1. injection E1 as <- <-. destruct x as [v st3]. cbn [fst snd] in *.
        apply Hr in E2 as (L1 & X1 & I1 & _ & _ & V1); [|assumption]. split; [assumption|].
        split; [eapply ext_trans; eauto|]. split; [intros a [<-|[]]; assumption|]. split; [cbn; lia|].
        intros G r Cr y Hy. cbn. rewrite (V1 G r Cr y Hy). ring. }
      destruct child; try (apply (Simple st L (ext_refl st) E)).
      binv E. destruct x as [o st3]. cbn [fst snd] in *. apply pow_extract_ok in E1 as (L1 & X1 & P1); auto.
      destruct o as [[base k]|].
      - injection E as <- <-. destruct P1 as (F1 & K1 & V1). split; [assumption|]. split; [assumption|].
        split; [intros a Ha; apply repeat_spec in Ha; subst; apply F1|]. split; [now rewrite repeat_length|].
        intros G r Cr y Hy. rewrite map_repeat, prod_repeat. exact (V1 G r Cr y Hy).
      - subst st3. apply (Simple st L (ext_refl st) E). }
    destruct Head as (L1 & X1 & I1 & N1 & V1). apply IH in E0 as (L2 & X2 & I2 & N2 & V2); [|assumption].
    split; [assumption|]. split; [eapply ext_trans; eauto|]. split; [|split].
    + apply incl_app; [|assumption]. intros a Ha. eapply ext_in; eauto.
    + rewrite app_length. cbn [length]. lia.
    + intros G r Cr y Hy. rewrite map_app, prod_app. cbn [map] in Hy. unfold vprod in Hy. cbn [fold_right] in Hy.
      eapply vmul_real; [exact Hy| |].
      * intros x Hx. symmetry. symmetry. apply (V1 (Forall_inv G) r (ext_consistent _ _ r X2 Cr) x Hx).
      * intros x Hx. apply (V2 (Forall_inv_tail G) r Cr x Hx).
Qed.

Lemma negate_first_spec l r : negate_first I n l = Ok r ->
  match r with
  | None => True
  | Some l' => exists l1 a a' l2, l = l1 ++ a :: l2 /\ l' = l1 ++ a' :: l2 /\ is_num a = true /\ e_neg I n a = Ok a'
  end.
Proof.
  revert r. induction l as [|a l IH]; intros r H; cbn [negate_first] in H.
  - now injection H as <-.
  - destruct (is_negative_integer a) eqn:Ea.
    + binv H. injection H as <-. exists [], a, x, l. repeat split; auto. destruct a; try discriminate. reflexivity.
    + binv H. apply IH in E. destruct x as [l'|]; injection H as <-; [|exact Logic.I].
      destruct E as (l1 & b & b' & l2 & -> & -> & H1 & H2). exists (a :: l1), b, b', l2. repeat split; auto.
Qed.
Lemma mul_terms_ok l l' : mul_terms I n l = Ok l' -> length l <= length l' /\
  (good (EMul l) -> Forall good l' /\ forall y, vprod (map (eval s) l) = Rv y -> vprod (map (eval s) l') = Rv y).
Proof.
  intros H. unfold mul_terms in H. binv H. apply negate_first_spec in E. destruct x as [m|]; injection H as <-.
  - destruct E as (l1 & a & a' & l2 & -> & -> & Hn & Ha). split; [rewrite !app_length; cbn; lia|].
    intros G. assert (Gl : Forall good (l1 ++ a :: l2)) by (rewrite Forall_forall; intros c Hc; now apply (good_child _ c G)).
    assert (Ia : In a (l1 ++ a :: l2)) by (apply in_or_app; right; now left).
    assert (Ga' : good a') by (eapply good_neg; eauto).
    apply Forall_app in Gl as [G1 G2]. split.
    + apply Forall_app. split.
      * apply Forall_app. split; [assumption|]. constructor; [assumption|]. now apply Forall_inv_tail in G2.
      * constructor; [|constructor]. apply (good_int _ _ G). unfold in_i64, INT64_MIN, INT64_MAX; lia.
    + intros y Hy.
      assert (Ev : eval s a' = vmul (Rv (-1)) (eval s a) \/ exists f, a = EFlt f).
      { destruct a; try discriminate; [right; eauto|left|left]; apply (e_neg_sound I HI s Hs n) in Ha as [_ Ha];
          try (apply good_wf; now apply Forall_inv in G2); cbn [eval vmul] in Ha |- *; exact Ha. }
      destruct Ev as [Ev|[f ->]].
      * rewrite !map_app in *. cbn [map] in *. rewrite !vprod_app, !vprod_cons in *. rewrite Ev.
        replace (vprod []) with (Rv 1) by reflexivity. rewrite vmul_1_r. cbn [eval].
        rewrite <- Hy. rewrite (vmul_comm _ (Rv (-1))).
        rewrite <- (vmul_assoc (Rv (-1))). rewrite (vmul_swap _ (Rv (-1))). apply vmul_opp_opp.
      * exfalso. rewrite map_app, vprod_app in Hy. cbn in Hy. destruct (vprod (map (eval s) l1)); discriminate.
  - split; [lia|]. intros G. split; [|auto]. rewrite Forall_forall. intros c Hc. now apply (good_child _ c G).
Qed.

Lemma vpow_recip b x y : b <> 0%R -> vpow (Rv b) (Rv x) = Rv y -> y <> 0%R /\ vpow (Rv b) (Rv (- x)) = Rv (/ y).
Proof.
  intros Hb H. destruct (Rtotal_order 0 b) as [P|[P|P]]; [|congruence|].
  - rewrite vpow_pos in * by assumption. injection H as <-. split; [apply Rgt_not_eq, exp_pos|]. now rewrite Rpower_Ropp.
  - destruct (int_dec x) as [[z ->]|N].
    + rewrite vpow_int in H by assumption. injection H as <-. split; [now apply powerRZ_NOR|].
      rewrite <- opp_IZR, vpow_int by assumption. f_equal. apply powerRZ_neg'.
    + rewrite vpow_neg_nonint in H; [discriminate|lra|assumption].
Qed.

Lemma negative_num_val x v : is_num x = true -> wf s x -> is_negative_number x = true -> eval s x = Rv v -> (v < 0)%R.
Proof.
  intros N W H E. destruct x; try discriminate N; cbn in *; try discriminate E.
  - apply Z.ltb_lt in H. injection E as <-. now apply (IZR_lt _ 0).
  - injection E as <-. apply Z.ltb_lt in H. destruct W as [[W _] _]. unfold rat_val.
    assert (0 < / IZR (den r))%R by (apply Rinv_0_lt_compat, (IZR_lt 0); lia).
    assert (IZR (num r) < 0)%R by (apply (IZR_lt _ 0); lia). unfold Rdiv. nra.
Qed.

Lemma lower_power_ok rec b x st v st' : rec_ok rec -> linv st -> lower_power I n rec b x st = Ok (v, st') ->
  linv st' /\ extends st st' /\ float_in st' v /\ (good (EPow b x) -> has_value st' v (eval s (EPow b x))).
Proof.
  intros Hr L H. unfold lower_power in H. binv H. destruct x0 as [c m]. cbn [fst] in H.
  destruct (is_negative_number c) eqn:Nc.
  - assert (Ne : negative_exponent I x) by (exists c, m; auto).
    binv H. binv H. binv H. binv H. binv H. binv H. rename x0 into nx, x1 into rc.
    destruct x2 as [w1 st1], x3 as [w2 st2], x4 as [w3 st3], x5 as [w4 st4]. cbn [fst snd] in *.
    apply Hr in E2 as (L1 & X1 & I1 & (t1 & T1) & _ & V1); [|assumption].
    apply Hr in E3 as (L2 & X2 & I2 & (t2 & T2) & _ & V2); [|assumption].
    apply maybe_cast_ok with (u := t2) in E4 as (L3 & X3 & I3 & T3 & V3 & _); auto using rank_float.
    assert (X13 : extends st1 st3) by (eapply ext_trans; eauto).
    apply maybe_cast_ok with (u := t1) in E5 as (L4 & X4 & I4 & T4 & V4 & _); auto using rank_float;
      [|eapply ext_in; eauto|now rewrite (ext_ty st1 st3)].
    apply push_float_ok in H as (L5 & X5 & F5 & V5); try reflexivity; auto.
    + split; [assumption|]. split; [eapply ext_trans; [|eapply ext_trans; [|eapply ext_trans]]; eauto|]. split; [assumption|].
      intros G r Cr y Hy. rewrite (V5 r Cr).
      pose proof (ext_consistent _ _ r X5 Cr) as C4. pose proof (ext_consistent _ _ r X4 C4) as C3.
      pose proof (ext_consistent _ _ r X3 C3) as C2. pose proof (ext_consistent _ _ r X2 C2) as C1.
      assert (Gr : good rc) by (eapply good_recip; eauto).
      assert (G1 : good (EInt 1)) by (eapply good_int; [exact Gr|]; unfold in_i64, INT64_MIN, INT64_MAX; lia).
      pose proof (good_wf _ G) as [Wb Wx]. cbn [eval] in Hy. destruct (vpow_Rv_base _ _ _ Hy) as (bb & xx & Hb & Hx).
      rewrite Hb, Hx in Hy.
      destruct (e_neg_Rv I HI s Hs n x nx xx Wx E0 Hx) as [Wn En].
      destruct (e_pow_sound I HI s Hs n b nx rc Wb Wn E1) as [Wr Er]. rewrite Hb, En in Er.
      assert (Nb : bb <> 0%R).
      { intros ->. destruct (is_num x) eqn:Nx.
        - destruct (as_coeff_and_mul_spec I s x c m E Wx) as (_ & _ & _ & _ & _ & Hc & _). destruct (Hc Nx) as [-> _].
          pose proof (negative_num_val x xx Nx Wx Nc Hx). unfold vpow in Hy. destruct (Rlt_dec 0 0); [lra|].
          destruct (Req_EM_T 0 0); [|lra]. destruct (Rlt_dec 0 xx); [lra|discriminate].
        - now apply (good_base b x G Ne Nx). }
      destruct (vpow_recip bb xx y Nb Hy) as [Ny Hy']. rewrite Hy' in Er. cbn in Er.
      cbn [map real_sem]. rewrite (V3 r C3), (V4 r C4). rewrite (V1 Gr r C1 _ Er), (V2 G1 r C2 1%R eq_refl).
      assert (/ y <> 0)%R by now apply Rinv_neq_0_compat. destruct (Req_EM_T (/ y) 0); [contradiction|]. field. assumption.
    + intros a [<-|[<-|[]]]; [eapply ext_in; eauto|assumption].
    + intros a [<-|[<-|[]]]; exists NFloat; [rewrite (ext_ty st3 st4); auto|assumption].
    + repeat split; discriminate.
    + intros g Ho Ha Hg. unfold one_type', one_type. rewrite Ho, Ha. cbn.
      rewrite (Hg w3), (Hg w4) by (cbn; auto). rewrite T4, (ext_ty st3 st4), T3 by auto. reflexivity.
  - binv H. destruct x0 as [o st1]. cbn [fst snd] in *. apply pow_extract_ok in E0 as (L1 & X1 & P1); auto.
    destruct o as [[base k]|].
    + destruct P1 as (F1 & K1 & V1). unfold exponentiate_by_squaring in H. destruct k as [|k]; [lia|].
      apply squaring_ok in H as (L2 & X2 & F2 & V2); auto; [|discriminate].
      split; [assumption|]. split; [eapply ext_trans; eauto|]. split; [assumption|].
      intros G r Cr y Hy. rewrite (V2 r Cr). rewrite SuccNat2Pos.id_succ, Rmult_1_l.
      apply (V1 G r (ext_consistent _ _ r X2 Cr) y Hy).
    + subst st1. clear X1 L1. binv H. binv H. binv H. binv H. rename x3 into t.
      destruct x0 as [w1 st1], x1 as [w2 st2], x2 as [w3 st3]. cbn [fst snd] in *.
      apply Hr in E0 as (L1 & X1 & I1 & (t1 & T1) & _ & V1); [|assumption].
      apply maybe_cast_ok with (u := t1) in E1 as (L2 & X2 & I2 & T2 & V2 & _); auto using rank_float.
      apply Hr in E2 as (L3 & X3 & I3 & _ & _ & V3); [|assumption].
      apply numeric_type_inv in E3.
      assert (X03 : extends st st3) by (eapply ext_trans; [|eapply ext_trans]; eauto).
      assert (T23 : ty_of (l_graph st3) w2 = TScalar NFloat) by now rewrite (ext_ty st2 st3).
      assert (Fin : forall st4 w o, linv st4 -> extends st3 st4 -> In w (l_ops st4) -> (o = F_powi \/ o = F_powf) ->
        ty_of (l_graph st4) w = TScalar (match o with F_powi => NInt | _ => NFloat end) ->
        holds st4 (fun r => r w = r w3) -> push (OCallStd o) NFloat [w2; w] st4 = Ok (v, st') ->
        linv st' /\ extends st st' /\ float_in st' v /\ (good (EPow b x) -> has_value st' v (eval s (EPow b x)))).
      { intros st4 w o L4 X4 I4 Ho T4 V4 P.
        apply push_float_ok in P as (L5 & X5 & F5 & V5); auto.
        - split; [assumption|]. split; [eapply ext_trans; [|eapply ext_trans]; eauto|]. split; [assumption|].
          intros G r Cr y Hy. rewrite (V5 r Cr). pose proof (ext_consistent _ _ r X5 Cr) as C4.
          pose proof (ext_consistent _ _ r X4 C4) as C3. pose proof (ext_consistent _ _ r X3 C3) as C2.
          pose proof (ext_consistent _ _ r X2 C2) as C1.
          cbn [eval] in Hy. destruct (vpow_Rv_base _ _ _ Hy) as (bb & xx & Hb & Hx). rewrite Hb, Hx in Hy.
          cbn [map]. rewrite (V4 r C4), (V2 r C2).
          rewrite (V1 (good_child _ b G (or_introl eq_refl)) r C1 bb Hb).
          rewrite (V3 (good_child _ x G (or_intror (or_introl eq_refl))) r C3 xx Hx).
          destruct Ho as [->| ->]; cbn [real_sem std_value or_junk]; rewrite Hy; reflexivity.
        - intros a [<-|[<-|[]]]; [|assumption]. exact (ext_in _ _ _ X4 (ext_in _ _ _ X3 I2)).
        - intros a [<-|[<-|[]]]; [|eexists; exact T4]. exists NFloat. rewrite (ext_ty st3 st4); auto. exact (ext_in _ _ _ X3 I2).
        - destruct Ho as [->| ->]; reflexivity.
        - repeat split; discriminate.
        - intros g Ho' Ha Hg. unfold one_type', one_type. rewrite Ho', Ha. cbn.
          rewrite (Hg w2), (Hg w) by (cbn; auto). rewrite T4, (ext_ty st3 st4), T23 by (auto; exact (ext_in _ _ _ X3 I2)).
          destruct Ho as [->| ->]; reflexivity. }
      destruct (numeric_dec t NInt) as [->|Nt].
      * apply (Fin st3 w3 F_powi); auto using ext_refl. intros r _. reflexivity.
      * binv H. destruct x0 as [w4 st4]. cbn [fst snd] in *.
        apply maybe_cast_ok with (u := t) in E0 as (L4 & X4 & I4 & T4 & V4 & _); auto using rank_float.
        apply (Fin st4 w4 F_powf); auto.
Qed.

Lemma push_load_ok st src t v st' : linv st -> lowered_op (OLoad src) = true -> lower_ft (OLoad src) [] = TScalar t ->
  (t = NBool -> (load_value inp src = 0 \/ load_value inp src = 1)%R) ->
  push (OLoad src) t [] st = Ok (v, st') ->
  linv st' /\ extends st st' /\ In v (l_ops st') /\ ty_of (l_graph st') v = TScalar t /\
  holds st' (fun r => r v = load_value inp src).
Proof.
  intros L Lo Ft B H. apply push_ok in H as (L2 & E2 & I2 & T2 & V2 & _); auto.
  - intros a [].
  - intros a [].
  - split; try reflexivity; try discriminate; auto. repeat split; discriminate.
  - intros g _ Ho _ _ _. unfold one_type', one_type. now rewrite Ho.
  - intros Ht r _. exact (B Ht).
Qed.

Lemma has_value_const st v x : holds st (fun r => r v = x) -> has_value st v (Rv x).
Proof. intros H r Cr y [= <-]. now apply H. Qed.

Lemma vfun_reals f l y : vfun f l = Rv y -> exists xs, l = map Rv xs.
Proof.
  intros H. destruct l as [|a [|b [|? ?]]].
  - now exists [].
  - destruct a as [x| |]; [now exists [x]| |]; destruct f; discriminate.
  - destruct a as [x| |], b as [x'| |]; [now exists [x; x']| | | | | | | |]; destruct f; discriminate.
  - destruct a as [x| |], b as [x'| |]; destruct f; discriminate.
Qed.

Lemma lmap_rec_ok rec l st vs st' : rec_ok rec -> linv st -> lmap rec l st = Ok (vs, st') ->
  linv st' /\ extends st st' /\ Forall2 (valued st') vs l.
Proof.
  intros Hr L H. apply (lmap_ok rec valued) in H; auto.
  - intros sa sb v a. apply ext_valued.
Qed.

Lemma valued_incl st vs l : Forall2 (valued st) vs l -> incl vs (l_ops st).
Proof. induction 1 as [|v e vs l [H _] _ IH]; intros a []; [now subst|now apply IH]. Qed.

Lemma two_casts rec a b st v1 v2 st1 st2 ta tb ca st3 cb st4 : rec_ok rec -> linv st ->
  rec a st = Ok (v1, st1) -> rec b st1 = Ok (v2, st2) ->
  numeric_type (l_graph st2) v1 = Ok ta -> numeric_type (l_graph st2) v2 = Ok tb ->
  maybe_cast v1 (numeric_max ta tb) st2 = Ok (ca, st3) -> maybe_cast v2 (numeric_max ta tb) st3 = Ok (cb, st4) ->
  linv st4 /\ extends st st4 /\ In ca (l_ops st4) /\ In cb (l_ops st4) /\
  ty_of (l_graph st4) ca = TScalar (numeric_max ta tb) /\ ty_of (l_graph st4) cb = TScalar (numeric_max ta tb) /\
  (good a -> has_value st4 ca (eval s a)) /\ (good b -> has_value st4 cb (eval s b)).
Proof.
  intros Hr L E1 E2 Na Nb C1 C2.
  apply Hr in E1 as (L1 & X1 & I1 & _ & _ & V1); [|assumption].
  apply Hr in E2 as (L2 & X2 & I2 & _ & _ & V2); [|assumption].
  apply numeric_type_inv in Na, Nb.
  apply maybe_cast_ok with (u := ta) in C1 as (L3 & X3 & I3 & T3 & V3 & _); auto using max_l; [|eapply ext_in; eauto].
  apply maybe_cast_ok with (u := tb) in C2 as (L4 & X4 & I4 & T4 & V4 & _); auto using max_r;
    [|eapply ext_in; eauto|now rewrite (ext_ty st2 st3)].
  split; [assumption|]. split; [eapply ext_trans; [|eapply ext_trans; [|eapply ext_trans]]; eauto|].
  split; [eapply ext_in; eauto|]. split; [assumption|]. split; [now rewrite (ext_ty st3 st4)|]. split; [assumption|].
  split; intros G r Cr y Hy.
  - rewrite (V3 r (ext_consistent _ _ r X4 Cr)). apply (V1 G r); [|assumption].
    eapply ext_consistent; [exact X2|]. eapply ext_consistent; [exact X3|]. now apply (ext_consistent _ _ r X4).
  - rewrite (V4 r Cr). apply (V2 G r); [|assumption]. eapply ext_consistent; [exact X3|]. now apply (ext_consistent _ _ r X4).
Qed.

Lemma lower_arg_type i p : (match (3 * i + numeric_rank (of_prim p)) mod 3 with 0 => NBool | 1 => NInt | _ => NFloat end) = of_prim p.
Proof.
  rewrite (Nat.mul_comm 3), Nat.add_comm, Nat.mod_add by lia. destruct p; reflexivity.
Qed.

Lemma sum_value vs l st : Forall2 (valued st) vs l -> Forall good l ->
  holds st (fun r => forall y, vsum (map (eval s) l) = Rv y -> fold_right Rplus 0%R (map r vs) = y).
Proof.
  intros Q G r Cr. induction Q as [|v e vs l (_ & _ & _ & V) Q IH]; intros y Hy; cbn in *.
  - now injection Hy as <-.
  - eapply vadd_real; [exact Hy| |].
    + intros x Hx. apply (V (Forall_inv G) r Cr x Hx).
    + intros x Hx. apply (IH (Forall_inv_tail G) x Hx).
Qed.

Lemma visit_ok rec : rec_ok rec -> rec_ok (visit I n K rec).
Proof.
  intros Hr e st v st' L H.
  assert (Float : forall o, is_boolean e = false -> linv st' /\ extends st st' /\ float_in st' v /\ (good e -> has_value st' v o) ->
    o = eval s e -> linv st' /\ extends st st' /\ valued st' v e).
  { intros o Nb (A1 & A2 & [A3 A4] & A5) ->. split; [assumption|]. split; [assumption|]. split; [assumption|].
    split; [now exists NFloat|]. split; [congruence|assumption]. }
  assert (Load : forall src t, lowered_op (OLoad src) = true -> lower_ft (OLoad src) [] = TScalar t ->
    (t = NBool -> (load_value inp src = 0 \/ load_value inp src = 1)%R) ->
    (is_boolean e = true -> t = NBool) -> (forall y, eval s e = Rv y -> load_value inp src = y) ->
    push (OLoad src) t [] st = Ok (v, st') -> linv st' /\ extends st st' /\ valued st' v e).
  { intros src t Lo Ft B Bt Hv P. apply push_load_ok in P as (L2 & X2 & I2 & T2 & V2); auto.
    split; [assumption|]. split; [assumption|]. split; [assumption|]. split; [now exists t|].
    split; [intros X; rewrite T2; f_equal; auto|]. intros _ r Cr y Hy. rewrite (V2 r Cr). auto. }
  destruct e; cbn [visit] in H; try discriminate H.
  - apply (Load _ _) in H; auto; discriminate.
  - apply (Load _ _) in H; auto; try discriminate. now intros y [= <-].
  - apply (Load _ _) in H; auto; try discriminate. now intros y [= <-].
  - apply (Load _ _) in H; auto; try discriminate. destruct c; now intros y [= <-].
  - destruct Hinp as (In1 & In2 & In3 & In4). destruct v0 as [nm set|nm i p|]; cbn [load_var] in H; [| |discriminate].
    + apply (Load _ _) in H; auto; try discriminate. intros y [= <-]. apply In1.
    + apply (Load _ _) in H; auto; try discriminate.
      * cbn [lower_ft]. f_equal. apply lower_arg_type.
      * intros Hp. apply In4. rewrite (Nat.mul_comm 3), Nat.add_comm, Nat.mod_add by lia. now rewrite Hp.
      * intros y [= <-]. apply In2.
  - (* product *)
    destruct (length l <? 2) eqn:Ln; [discriminate|]. apply Nat.ltb_ge in Ln. binv H. binv H. destruct x0 as [vs st1]. cbn [fst snd] in *.
    apply mul_terms_ok in E as [Len Hm]. apply mul_operands_ok in E0 as (L1 & X1 & I1 & N1 & V1); auto.
    apply create_ok in H as (L2 & X2 & I2 & S2 & V2); auto; [|lia].
    split; [assumption|]. split; [eapply ext_trans; eauto|]. split; [assumption|]. split; [assumption|]. split; [discriminate|].
    intros G r Cr y Hy. rewrite (V2 r Cr). destruct (Hm G) as [Gx Hx]. cbn [eval] in Hy. apply Hx in Hy.
    apply (V1 Gx r (ext_consistent _ _ r X2 Cr) y Hy).
  - (* sum *)
    destruct (length l <? 2) eqn:Ln; [discriminate|]. apply Nat.ltb_ge in Ln. binv H. destruct x as [vs st1]. cbn [fst snd] in *.
    apply lmap_rec_ok in E as (L1 & X1 & Q1); auto.
    apply create_ok in H as (L2 & X2 & I2 & S2 & V2); auto.
    + split; [assumption|]. split; [eapply ext_trans; eauto|]. split; [assumption|]. split; [assumption|]. split; [discriminate|].
      intros G r Cr y Hy. rewrite (V2 r Cr). cbn [eval] in Hy. cbn [real_sem].
      eapply (sum_value vs l st1 Q1); [|exact (ext_consistent _ _ r X2 Cr)|exact Hy].
      rewrite Forall_forall. intros c Hc. now apply (good_child _ c G).
    + eapply valued_incl; eauto.
    + assert (length vs = length l) by (clear - Q1; induction Q1; cbn; auto). lia.
  - (* power *)
    apply lower_power_ok in H; auto. eapply Float; [reflexivity|exact H|reflexivity].
  - (* function *)
    binv H. destruct x as [vs st1]. binv H. rename x into t. cbn [fst snd] in *.
    apply lmap_rec_ok in E as (L1 & X1 & Q1); auto.
    assert (Ty : TScalar t = lower_ft (OCallStd (std_of_built_in f)) (map (ty_of (l_graph st1)) vs)).
    { destruct f; cbn in E0 |- *; try (injection E0 as <-; reflexivity).
      destruct vs as [|w [|]]; try discriminate. apply numeric_type_inv in E0. cbn. now rewrite E0. }
    assert (Nb : t = NBool -> f = Fabs) by (intros ->; destruct f; try discriminate E0; reflexivity).
    assert (Iv : incl vs (l_ops st1)) by (eapply valued_incl; eauto).
    apply push_ok in H as (L2 & X2 & I2 & T2 & V2 & _); auto.
    + split; [assumption|]. split; [eapply ext_trans; eauto|]. split; [assumption|]. split; [now exists t|]. split; [discriminate|].
      intros G r Cr y Hy. rewrite (V2 r Cr). cbn [eval] in Hy. destruct (vfun_reals _ _ _ Hy) as [xs Hxs].
      assert (Hvs : map r vs = xs).
      { assert (Gl : Forall good l) by (rewrite Forall_forall; intros c Hc; now apply (good_child _ c G)).
        pose proof (ext_consistent _ _ r X2 Cr) as C1. clear - Q1 Gl C1 Hxs. revert xs Hxs.
        induction Q1 as [|w a vs l (_ & _ & _ & V) Q IH]; intros xs Hxs; destruct xs as [|x xs]; try discriminate; [reflexivity|].
        cbn in *. injection Hxs as Hx Hxs. f_equal; [|exact (IH (Forall_inv_tail Gl) xs Hxs)].
        apply (V (Forall_inv Gl) r C1 x Hx). }
      rewrite Hvs. rewrite Hxs in Hy. destruct f; cbn [std_of_built_in real_sem std_value]; rewrite Hy; reflexivity.
    + intros a Ha. clear - Q1 Ha. induction Q1 as [|w e vs l (_ & Sw & _) Q IH]; [destruct Ha|]. destruct Ha as [<-|Ha]; auto.
    + split; try discriminate.
      * reflexivity.
      * exact Ty.
      * repeat split; discriminate.
    + intros g Hg Ho _ _ Ha. unfold one_type', one_type. rewrite Ho. now destruct f.
    + (* the absolute value of a boolean *)
      intros Hb r Cr. pose proof (Nb Hb). subst t f. cbn [std_of_built_in real_sem std_value].
      cbn in E0. destruct vs as [|w [|]]; try discriminate. apply numeric_type_inv in E0.
      assert (Iw : In w (l_ops st1)) by (apply Iv; now left). cbn.
      destruct (li_bool _ L1 r Cr w Iw E0) as [-> | ->]; [left; apply Rabs_R0|right; apply Rabs_R1].
  - apply Hr in H as (L1 & X1 & I1 & S1 & B1 & V1); [|assumption]. split; [assumption|]. split; [assumption|]. split; [assumption|].
    split; [assumption|]. split; [discriminate|]. intros G. apply V1. apply (good_child _ e G). now left.
  - (* conditional *)
    destruct (is_boolean e1) eqn:B1; [|discriminate]. cbn [negb] in H.
    binv H. destruct x as [w1 st1]. binv H. destruct x as [w2 st2]. binv H. destruct x as [w3 st3]. binv H. rename x into ta.
    binv H. rename x into tb. binv H. destruct x as [ca st4]. binv H. destruct x as [cb st5]. cbn [fst snd] in *.
    apply Hr in E as (L1 & X1 & I1 & _ & Bv & V1); [|assumption]. specialize (Bv B1).
    destruct (two_casts rec e2 e3 st1 w2 w3 st2 st3 ta tb ca st4 cb st5 Hr L1 E0 E1 E2 E3 E4 E5)
      as (L2 & X2 & I2 & I3 & T2 & T3 & V2 & V3).
    assert (I1' : In w1 (l_ops st5)) by (eapply ext_in; eauto).
    assert (T1' : ty_of (l_graph st5) w1 = TScalar NBool) by now rewrite (ext_ty st1 st5).
    apply push_ok in H as (L4 & X4 & I4 & T4 & V4 & _); auto.
    + split; [assumption|]. split; [eapply ext_trans; [|eapply ext_trans]; eauto|]. split; [assumption|].
      split; [now exists (numeric_max ta tb)|]. split; [discriminate|].
      intros G r Cr y Hy. rewrite (V4 r Cr). pose proof (ext_consistent _ _ r X4 Cr) as C2.
      cbn [eval] in Hy. cbn [map real_sem]. unfold vcond in Hy. destruct (eval s e1) as [c| |] eqn:Ec; try discriminate.
      rewrite (V1 (good_child _ e1 G (or_introl eq_refl)) r (ext_consistent _ _ r X2 C2) c eq_refl).
      destruct (Req_EM_T c 1) as [->|N1].
      * destruct (Req_EM_T 1 0); [exfalso; lra|]. apply (V2 (good_child _ e2 G (or_intror (or_introl eq_refl))) r C2 y Hy).
      * destruct (Req_EM_T c 0); [|discriminate].
        apply (V3 (good_child _ e3 G (or_intror (or_intror (or_introl eq_refl)))) r C2 y Hy).
    + intros a [<-|[<-|[<-|[]]]]; assumption.
    + intros a [<-|[<-|[<-|[]]]]; eexists; eassumption.
    + split; try discriminate; try reflexivity.
      * cbn. now rewrite T2.
      * repeat split; discriminate.
    + intros g Hg Ho Ht _ Ha. unfold one_type', one_type. rewrite Ho, (Ha eq_refl). exists (numeric_max ta tb).
      split; [assumption|]. cbn. rewrite (Hg w1), (Hg ca), (Hg cb) by (cbn; auto). now rewrite T1', T2, T3.
    + intros Hb r Cr. cbn [map real_sem]. destruct (Req_EM_T (r w1) 0).
      * apply (li_bool _ L2 r Cr cb I3). now rewrite T3, Hb.
      * apply (li_bool _ L2 r Cr ca I2). now rewrite T2, Hb.
  - (* bracket *)
    destruct (is_boolean e) eqn:B1; [|discriminate]. cbn [negb] in H.
    binv H. destruct x as [w1 st1]. cbn [fst snd] in *.
    apply Hr in E as (L1 & X1 & I1 & _ & Bv & V1); [|assumption]. specialize (Bv B1).
    apply push_ok in H as (L4 & X4 & I4 & T4 & V4 & _); auto.
    + split; [assumption|]. split; [eapply ext_trans; eauto|]. split; [assumption|].
      split; [now exists NInt|]. split; [discriminate|].
      intros G r Cr y Hy. rewrite (V4 r Cr). pose proof (ext_consistent _ _ r X4 Cr) as C2. cbn [eval] in Hy. cbn [map real_sem].
      rewrite trunc_bool; [|exact (li_bool _ L1 r C2 w1 I1 Bv)].
      apply (V1 (good_child _ e G (or_introl eq_refl)) r C2 y Hy).
    + intros a [<-|[]]; assumption.
    + intros a [<-|[]]; eexists; eassumption.
    + split; try discriminate; try reflexivity. repeat split; discriminate.
    + intros g Hg Ho Ht _ Ha. unfold one_type', one_type. rewrite Ho, (Ha eq_refl). intros _. exists NBool.
      split; [|cbn; lia]. cbn. rewrite (Hg w1) by now left. now rewrite Bv.
    + discriminate.
  - apply Hr in H as (L1 & X1 & I1 & S1 & B1 & V1); [|assumption]. split; [assumption|]. split; [assumption|]. split; [assumption|].
    split; [assumption|]. split; [discriminate|]. intros G. apply V1. apply (good_child _ e G). now left.
  - apply (Load _ _) in H; auto.
    + cbn. destruct b; auto.
    + now intros y [= <-].
  - (* relation *)
    binv H. destruct x as [w1 st1]. binv H. destruct x as [w2 st2]. binv H. rename x into ta.
    binv H. rename x into tb. binv H. destruct x as [ca st3]. binv H. destruct x as [cb st4]. cbn [fst snd] in *.
    destruct (two_casts rec e1 e2 st w1 w2 st1 st2 ta tb ca st3 cb st4 Hr L E E0 E1 E2 E3 E4)
      as (L2 & X2 & I2 & I3 & T2 & T3 & V2 & V3).
    apply push_ok in H as (L4 & X4 & I4 & T4 & V4 & _); auto.
    + split; [assumption|]. split; [eapply ext_trans; eauto|]. split; [assumption|].
      split; [now exists NBool|]. split; [auto|].
      intros G q Cr y Hy. rewrite (V4 q Cr). pose proof (ext_consistent _ _ q X4 Cr) as C2. cbn [eval] in Hy.
      unfold vrel in Hy. destruct (eval s e1) as [x1| |] eqn:Ex1; try discriminate. destruct (eval s e2) as [x2| |] eqn:Ex2; try discriminate.
      cbn [map]. rewrite (V2 (good_child _ e1 G (or_introl eq_refl)) q C2 x1 eq_refl).
      rewrite (V3 (good_child _ e2 G (or_intror (or_introl eq_refl))) q C2 x2 eq_refl).
      destruct o; cbn [of_relop real_sem].
      * destruct (Rlt_dec x1 x2); congruence.
      * destruct (Rle_dec x1 x2); congruence.
      * destruct (Req_EM_T x1 x2); congruence.
    + intros a [<-|[<-|[]]]; assumption.
    + intros a [<-|[<-|[]]]; eexists; eassumption.
    + split; try discriminate; try reflexivity. repeat split; discriminate.
    + intros g Hg Ho Ht _ Ha. unfold one_type', one_type. rewrite Ho, (Ha eq_refl). exists (numeric_max ta tb).
      cbn. rewrite (Hg ca), (Hg cb) by (cbn; auto). now rewrite T2, T3.
    + intros _ q Cr. cbn [map]. destruct o; cbn [of_relop real_sem];
        [destruct (Rlt_dec (q ca) (q cb))|destruct (Rle_dec (q ca) (q cb))|destruct (Req_EM_T (q ca) (q cb))]; auto.
Qed.

Lemma is_boolean_ident k e : ident k e = true -> is_boolean k = is_boolean e.
Proof. destruct k, e; cbn; congruence. Qed.

Lemma find_expr_ok e st v : linv st -> find_expr I e (l_cache st) = Some v -> valued st v e.
Proof.
  intros L. pose proof (li_cache _ L) as C. induction C as [|[k w] l H _ IH]; [discriminate|]. cbn [find_expr].
  destruct (key_eq I k e) eqn:E; [|assumption]. intros [= ->]. cbn [fst snd] in H.
  assert (Id : ident k e = true) by (unfold key_eq in E; now apply andb_true_iff in E).
  destruct H as (H1 & H2 & H3 & H4). split; [assumption|]. split; [assumption|].
  split; [now rewrite <- (is_boolean_ident k e Id)|]. intros G. pose proof (good_ident k e Id G). subst k. auto.
Qed.

Lemma lower_ok k : rec_ok (lower I n K k).
Proof.
  induction k as [|k IH]; intros e st v st' L H; cbn [lower] in H; [discriminate|].
  destruct (find_expr I e (l_cache st)) as [w|] eqn:F.
  - injection H as <- <-. split; [assumption|]. split; [apply ext_refl|]. now apply find_expr_ok.
  - binv H. destruct x as [w st1]. apply (visit_ok _ IH) in E as (L1 & X1 & V1); [|assumption].
    destruct (find_expr I e (l_cache st1)) as [w'|] eqn:F'.
    + injection H as <- <-. split; [assumption|]. split; [assumption|]. now apply find_expr_ok.
    + injection H as <- <-. split; [|split; [exact X1|exact V1]].
      destruct L1 as [A1 A2 A3 A4 A5]. split; auto. cbn [l_cache]. constructor; [exact V1|exact A4].
Qed.

(** ** Outputs *)
Definition saved (st : lstate) (v : name) (o : output) : Prop :=
  op_of (l_graph st) v = OSave (o_usage o) (o_key o) /\
  exists a, args (l_graph st) v = [a] /\
    forall e x, sort_expression I n (o_expr o) = Ok e -> good e -> eval s e = Rv x ->
      (o_type o = NInt -> exists z, x = IZR z) -> holds st (fun r => r a = x).
Lemma ext_saved st st' v o : In v (l_ops st) -> extends st st' -> saved st v o -> saved st' v o.
Proof.
  intros Hv E (H1 & a & H2 & H3). destruct (proj2 E v Hv) as (E1 & _ & E3). split; [congruence|].
  exists a. split; [congruence|]. intros e x He G Hx Hz. eapply ext_holds; eauto.
Qed.

Definition keeps (st st' : lstate) : Prop := forall v, In v (l_ops st) -> In v (l_ops st') /\ same_at (l_graph st) (l_graph st') v.

Lemma push_save_ok st u k c g v : linv st -> In c (l_ops st) -> scalar (l_graph st) c ->
  push_value (l_graph st) 0 (OSave u k) TVoid [c] = Ok (g, v) ->
  let st' := mk_ls g (l_ops st ++ [v]) (l_cache st) (l_casts st) in
  linv st' /\ keeps st st' /\ (forall r : name -> R, @consistent A r (l_graph st') (l_ops st') -> @consistent A r (l_graph st) (l_ops st)) /\
  op_of g v = OSave u k /\ args g v = [c].
Proof.
  intros L Hc Hsc H st'. pose proof L as [P O B C X Z Al Md Sc]. pose proof (zero_push _ _ _ _ _ _ Z H) as Z2.
  assert (P0 : program T (l_graph st) 0 (l_ops st ++ [])) by now rewrite app_nil_r.
  assert (Ok1 : op_ok (T := T) (l_graph st) (OSave u k) TVoid [c]).
  { split; try reflexivity; try discriminate. repeat split; discriminate. }
  assert (Ic : incl [c] (l_ops st)) by (intros a [<-|[]]; assumption).
  destruct (push_any_step (l_graph st) 0 (l_ops st) [] _ _ _ P0 Ic Ok1) as (g2 & E2 & P2 & S2 & N2 & O2 & T2 & A2 & Old).
  rewrite E2 in H. injection H as <- <-. set (v := g_next (l_graph st)) in *.
  assert (Fr : forall w, In w (l_ops st) -> w <> v).
  { intros w Hw ->. destruct P as [Bk _]. pose proof (bo_fresh _ _ _ Bk _ Hw). unfold v in *. lia. }
  assert (Sm : forall w, In w (l_ops st) -> same_at (l_graph st) g2 w) by (intros w Hw; apply Old; now apply Fr).
  assert (Cs : forall r : name -> R, @consistent A r (l_graph st') (l_ops st') -> @consistent A r (l_graph st) (l_ops st)).
  { intros r Cr w Hw. destruct (Sm w Hw) as (E1 & _ & E3). rewrite <- E1, <- E3. apply Cr. cbn. apply in_or_app. now left. }
  split; [|split; [|split; [|split]]]; auto.
  - split.
    + assumption.
    + intros w Hw. apply in_app_or in Hw as [Hw|[<-|[]]].
      * destruct (Sm w Hw) as (E1 & E3 & E4). cbn [l_graph st'].
        assert (M : map (ty_of g2) (args (l_graph st) w) = map (ty_of (l_graph st)) (args (l_graph st) w)).
        { apply map_ext_in. intros a Ha. apply (Sm a). eapply args_of_in; eauto. }
        pose proof (O w Hw) as Ow. unfold one_type', one_type in *. now rewrite E1, E3, E4, M.
      * unfold one_type', one_type. cbn [l_graph st']. now rewrite O2.
    + intros r Cr w Hw Tw. apply in_app_or in Hw as [Hw|[<-|[]]].
      * apply (B r (Cs r Cr) w Hw). rewrite <- Tw. symmetry. apply (Sm w Hw).
      * cbn [l_graph st'] in Tw. rewrite T2 in Tw. discriminate.
    + cbn [l_cache st']. eapply Forall_impl; [|exact C]. intros [q w] (H1 & (t & H2) & H3 & H4). cbn [fst snd] in *.
      destruct (Sm w H1) as (_ & E3 & _).
      split; [apply in_or_app; now left|]. split; [exists t; cbn [l_graph st']; congruence|].
      split; [intros Hb; cbn [l_graph st']; rewrite E3; auto|]. intros G r Cr. apply (H4 G r). now apply Cs.
    + cbn [l_casts st']. eapply Forall_impl; [|exact X]. intros [[w1 t] w] (H1 & H2 & H3 & H4). cbn [fst snd] in *.
      destruct (Sm w H1) as (F1 & F2 & F3). split; [apply in_or_app; now left|]. repeat split; cbn [l_graph st' fst snd]; congruence.
    + exact Z2.
    + cbn [l_graph st' l_ops]. intros w Hw. rewrite N2 in Hw. apply in_or_app. destruct (Nat.eq_dec w v) as [->|Nw]; [right; now left|left; apply Al; unfold v in *; lia].
    + intros w Hw. apply in_app_or in Hw as [Hw|[<-|[]]]; cbn [l_graph st'].
      * destruct (Sm w Hw) as (-> & _). auto.
      * right. rewrite O2. eauto.
    + intros w a Hw Ha. cbn [l_graph st'] in *. assert (Sa : scalar (l_graph st) a /\ In a (l_ops st)).
      { apply in_app_or in Hw as [Hw|[<-|[]]].
        - destruct (Sm w Hw) as (_ & _ & Ea). rewrite Ea in Ha. split; [now apply (Sc w)|now apply (args_of_in st w)].
        - rewrite A2 in Ha. destruct Ha as [<-|[]]. auto. }
      destruct Sa as [(x & Hx) Ia]. exists x. destruct (Sm a Ia) as (_ & -> & _). exact Hx.
  - intros w Hw. split; [apply in_or_app; now left|]. now apply Sm.
Qed.

Definition is_save (o : op) : bool := match o with OSave _ _ => true | _ => false end.
Definition saves (g : graph) (l : list name) : list name := filter (fun v => is_save (op_of g v)) l.
Definition all_saved (st : lstate) (outs : list output) : Prop :=
  Forall2 (saved st) (saves (l_graph st) (l_ops st)) outs /\
  (forall o, In o outs -> exists v, In v (l_ops st) /\ saved st v o) /\
  (forall v u k, In v (l_ops st) -> op_of (l_graph st) v = OSave u k -> exists o, In o outs /\ saved st v o).

(** The type asked of an output: booleans for conditions only. *)
Definition fits (o : output) : Prop :=
  (up -> o_type o = NFloat) /\ (o_type o = NBool -> forall e, sort_expression I n (o_expr o) = Ok e -> is_boolean e = true).

Lemma cast_value_int u x : (exists z, x = IZR z) -> cast_value u NInt x = x.
Proof.
  intros [z ->]. unfold cast_value. destruct (numeric_dec u NInt); [reflexivity|]. cbn. apply trunc_IZR.
Qed.

Lemma add_output_ok k st o st' outs : linv st -> all_saved st outs -> fits o ->
  add_output I n K k st o = Ok st' -> linv st' /\ all_saved st' (outs ++ [o]).
Proof.
  intros L (S0 & S1 & S2) [Fu Fb] H. unfold add_output in H. binv H. rename x into e. binv H. destruct x as [v st1].
  binv H. destruct x as [c st2]. binv H. destruct x as [g w]. injection H as <-. cbn [fst snd] in *.
  apply lower_ok in E0 as (L1 & X1 & I1 & (t & T1) & B1 & V1); [|assumption].
  apply maybe_cast_gen with (u := t) in E1 as (L2 & X2 & I2 & T2 & V2 & _); auto.
  - assert (Sc2 : scalar (l_graph st2) c) by (eexists; exact T2). apply push_save_ok in E2 as (L3 & K3 & C3 & O3 & A3); auto. split; [assumption|].
    set (st3 := mk_ls g (l_ops st2 ++ [w]) (l_cache st2) (l_casts st2)) in *.
    assert (Sv : saved st3 w o).
    { split; [assumption|]. exists c. split; [assumption|]. intros e' x He G Hx Hz r Cr. rewrite He in E. injection E as ->.
      pose proof (C3 r Cr) as C2. rewrite (V2 r C2). pose proof (ext_consistent _ _ r X2 C2) as C1.
      rewrite (V1 G r C1 x Hx).
      destruct (o_type o) eqn:Ot.
      - specialize (B1 (Fb eq_refl e He)). rewrite B1 in T1. injection T1 as <-. reflexivity.
      - apply cast_value_int. auto.
      - apply cast_value_up; [apply rank_float|]. intros ->.
        rewrite <- (V1 G r C1 x Hx). exact (li_bool _ L1 r C1 v I1 T1). }
    assert (X02 : extends st st2) by (eapply ext_trans; eauto).
    assert (Mono : forall x o', In x (l_ops st2) -> saved st2 x o' -> saved st3 x o').
    { intros x o' Hx (H1 & a & H2 & H3). destruct (K3 x Hx) as (_ & F1 & _ & F2). split; [congruence|]. exists a.
      split; [congruence|]. intros e' y He G Hy Hz r Cr. apply (H3 e' y He G Hy Hz r). now apply C3. }
    split; [|split].
    + destruct X02 as [[l [El Nl]] Sl]. unfold saves. cbn [l_graph l_ops st3]. rewrite filter_app. apply Forall2_app.
      * rewrite El, filter_app.
        assert (F1 : forall x, In x (l_ops st2) -> op_of g x = op_of (l_graph st2) x) by (intros x Hx; apply (K3 x Hx)).
        assert (Fl : filter (fun x => is_save (op_of g x)) l = []).
        { assert (Il : incl l (l_ops st2)) by (rewrite El; intros x Hx; apply in_or_app; now right). clear - F1 Nl Il.
          induction l as [|x l IH]; [reflexivity|]. cbn [filter]. rewrite F1 by (apply Il; now left).
          destruct (op_of (l_graph st2) x) eqn:Ex; cbn [is_save]; try (apply IH; [intros w q j Hw; apply Nl; now right|intros w Hw; apply Il; now right]).
          exfalso. apply (Nl x _ _ (or_introl eq_refl) Ex). }
        rewrite Fl, app_nil_r.
        assert (Fe : filter (fun x => is_save (op_of g x)) (l_ops st) = saves (l_graph st) (l_ops st)).
        { apply filter_ext_in. intros x Hx. rewrite F1 by (rewrite El; apply in_or_app; now left). now destruct (Sl x Hx) as (-> & _). }
        rewrite Fe. assert (Isv : incl (saves (l_graph st) (l_ops st)) (l_ops st)) by (intros x Hx; now apply filter_In in Hx).
        assert (Mn : forall x o', In x (l_ops st) -> saved st x o' -> saved st3 x o').
        { intros x o' Hx Sx. apply Mono; [rewrite El; apply in_or_app; now left|]. refine (ext_saved st st2 x o' Hx _ Sx). split; [exists l; auto|auto]. }
        clear - S0 Isv Mn. induction S0 as [|x o' xs os Hxo S0 IH]; constructor; [apply Mn; auto; apply Isv; now left|].
        apply IH. intros y Hy. apply Isv. now right.
      * cbn [filter]. rewrite O3. cbn [is_save]. constructor; [exact Sv|constructor].
    + intros o' Ho. apply in_app_or in Ho as [Ho|[<-|[]]].
      * destruct (S1 o' Ho) as (x & Hx & Sx). assert (In x (l_ops st2)) by (eapply ext_in; eauto).
        exists x. split; [now apply K3|]. apply Mono; auto. refine (ext_saved st st2 x _ _ _ _); auto.
      * exists w. split; [apply in_or_app; right; now left|assumption].
    + intros x u q Hx Ho. apply in_app_or in Hx as [Hx|[<-|[]]].
      * destruct (K3 x Hx) as (_ & F1 & _ & F2). cbn [l_graph st3] in *. rewrite F1 in Ho.
        destruct X02 as [[l [El Nl]] Sl]. pose proof Hx as Hx'. rewrite El in Hx'. apply in_app_or in Hx' as [H0|H0].
        -- destruct (Sl x H0) as (G1 & _ & G3). rewrite G1 in Ho. destruct (S2 x u q H0 Ho) as (o' & Ho' & So').
           exists o'. split; [apply in_or_app; now left|]. apply Mono; auto. refine (ext_saved st st2 x _ _ _ _); auto.
           split; [exists l; auto|auto].
        -- now apply Nl in Ho.
      * exists o. split; [apply in_or_app; right; now left|assumption].
  - intros N Ht. apply N. specialize (B1 (Fb Ht e E)). rewrite B1 in T1. injection T1 as <-. congruence.
  - intros U. rewrite (Fu U). apply rank_float.
Qed.

Lemma mfold_outputs k outs : forall st st' done, linv st -> all_saved st done -> Forall fits outs ->
  mfold (add_output I n K k) outs st = Ok st' -> linv st' /\ all_saved st' (done ++ outs).
Proof.
  induction outs as [|o outs IH]; intros st st' done L S F H; cbn [mfold] in H.
  - injection H as <-. now rewrite app_nil_r.
  - binv H. apply add_output_ok with (outs := done) in E as [L1 S1]; auto; [|now apply Forall_inv in F].
    apply IH with (done := done ++ [o]) in H; auto; [|now apply Forall_inv_tail in F]. now rewrite <- app_assoc in H.
Qed.

Lemma linv_empty : linv empty_state.
Proof.
  split.
  - split; [|intros v a []]. split; try (intros v Hv; destruct Hv; fail).
    + constructor.
    + intros v c. reflexivity.
    + intros v _. reflexivity.
  - intros v [].
  - intros r _ v [].
  - constructor.
  - constructor.
  - intros v. reflexivity.
  - intros v Hv. cbn in Hv. lia.
  - intros v [].
  - intros v a [].
Qed.

Lemma lower_all_ok k outs st : Forall fits outs -> lower_all I n K k outs = Ok st -> linv st /\ all_saved st outs.
Proof.
  intros F H. apply mfold_outputs with (done := []) in H; auto using linv_empty. split; [constructor|split; [intros o []|intros v u q []]].
Qed.

(** ** The number of multiplications *)
Lemma squaring_shape p : forall base result st v st', linv st -> float_in st base ->
  (forall r, result = Some r -> float_in st r) ->
  squaring base p result st = Ok (v, st') ->
  exists l, l_ops st' = l_ops st ++ l /\
    length l = Pos.size_nat p - 1 + (ones p - match result with Some _ => 0 | None => 1 end) /\
    (forall w, In w l -> op_of (l_graph st') w = OMul /\ exists a b, args (l_graph st') w = [a; b]) /\
    forall (M : Type) (one : M) (mul : M -> M -> M),
      (forall x y z, mul x (mul y z) = mul (mul x y) z) -> (forall x, mul one x = x) -> (forall x, mul x one = x) ->
      forall r : name -> M,
      (forall w a b, In w l -> args (l_graph st') w = [a; b] -> r w = mul (r a) (r b)) ->
      forall x i j, r base = mpow one mul x i ->
        match result with Some q => r q = mpow one mul x j | None => j = 0 end ->
        r v = mpow one mul x (j + i * Pos.to_nat p).
Proof.
  assert (PowAdd : forall (M : Type) (one : M) (mul : M -> M -> M),
      (forall x y z, mul x (mul y z) = mul (mul x y) z) -> (forall x, mul one x = x) ->
      forall x i j, mul (mpow one mul x i) (mpow one mul x j) = mpow one mul x (i + j)).
  { intros M one mul As U x i j. induction i as [|i IH]; cbn; [apply U|]. now rewrite <- As, IH. }
  assert (Step : forall st a b v st', linv st -> float_in st a -> float_in st b -> push OMul NFloat [a; b] st = Ok (v, st') ->
    linv st' /\ extends st st' /\ float_in st' v /\ l_ops st' = l_ops st ++ [v] /\ op_of (l_graph st') v = OMul /\
    (args (l_graph st') v = [a; b] \/ args (l_graph st') v = [b; a])).
  { intros st a b v st' L [Ia Ta] [Ib Tb] H.
    assert (Ops : l_ops st' = l_ops st ++ [v]) by (unfold push in H; binv H; injection H as <- <-; reflexivity).
    apply push_ok in H as (L2 & E2 & I2 & T2 & V2 & _ & _ & O2 & A2).
    - split; [assumption|]. split; [assumption|]. split; [now split|]. split; [assumption|]. split; [assumption|].
      assert (Pm : Permutation (args (l_graph st') v) [a; b]) by (rewrite A2; apply maybe_sort_perm).
      apply Permutation_sym, Permutation_length_2_inv in Pm. exact Pm.
    - assumption.
    - intros x [<-|[<-|[]]]; assumption.
    - intros x [<-|[<-|[]]]; now exists NFloat.
    - split; try reflexivity.
      + intros _. exists NFloat. repeat split; [discriminate|]. intros x [<-|[<-|[]]]; assumption.
      + cbn [map]. rewrite Ta. reflexivity.
      + repeat split; discriminate.
    - reflexivity.
    - intros g Hg Ho' Ht' Hp _. unfold one_type', one_type. rewrite Ho'. exists NFloat. split; [assumption|]. split; [discriminate|].
      apply Forall_map. rewrite Forall_forall. intros x Hx. apply (Permutation_in x Hp) in Hx. rewrite (Hg x Hx).
      destruct Hx as [<-|[<-|[]]]; assumption.
    - discriminate. }
  induction p as [p IH|p IH|]; intros base result st v st' L Hb Hr H; cbn [squaring] in H.
  - binv H. destruct x as [a st1]. binv H. destruct x as [b st2]. cbn [fst snd] in *.
    assert (F1 : linv st1 /\ extends st st1 /\ float_in st1 a /\
      exists l0, l_ops st1 = l_ops st ++ l0 /\ length l0 = match result with Some _ => 1 | None => 0 end /\
        (forall w, In w l0 -> op_of (l_graph st1) w = OMul) /\
        match result with
        | Some q => l0 = [a] /\ (args (l_graph st1) a = [q; base] \/ args (l_graph st1) a = [base; q])
        | None => l0 = [] /\ a = base
        end).
    { destruct result as [r0|].
      - binv E. apply numeric_type_inv in E1. destruct Hb as [Hb1 Hb2]. rewrite Hb2 in E1. injection E1 as <-.
        apply Step in E as (A1 & A2 & A3 & A4 & A5 & A6); auto; [|now split].
        repeat (split; [assumption|]). exists [a]. repeat (split; auto). intros w [<-|[]]. assumption.
      - injection E as <- <-. split; [assumption|]. split; [apply ext_refl|]. split; [assumption|]. exists [].
        rewrite app_nil_r. repeat (split; auto). intros w []. }
    destruct F1 as (L1 & X1 & Fa & l0 & Ol0 & Nl0 & Ml0 & Sl0).
    assert (Fb : float_in st1 base) by (eapply float_ext; eauto).
    binv E0. apply numeric_type_inv in E1. pose proof Fb as [Fb1 Fb2]. rewrite Fb2 in E1. injection E1 as <-.
    apply Step in E0 as (L2 & X2 & Fb' & Ob & Mb & Ab); auto.
    assert (Aab : args (l_graph st2) b = [base; base]) by (destruct Ab as [->| ->]; reflexivity).
    destruct (squaring_ok p b (Some a) st2 v st' L2 Fb') as (L3 & X3 & Fv & _); auto.
    { intros r [= <-]. eapply float_ext; eauto. }
    apply IH in H as (l & Ol & Nl & Ml & Vl); [|assumption|assumption|intros r [= <-]; eapply float_ext; eauto].
    exists (l0 ++ b :: l). split; [rewrite Ol, Ob, Ol0; now rewrite <- !app_assoc|]. split; [|split].
    + rewrite app_length. cbn [length ones Pos.size_nat]. rewrite Nl, Nl0.
      assert (1 <= Pos.size_nat p) by (destruct p; cbn; lia). destruct result; lia.
    + intros w Hw. apply in_app_or in Hw as [Hw|[<-|Hw]].
      * assert (Hw1 : In w (l_ops st1)) by (rewrite Ol0; apply in_or_app; now right).
        destruct (proj2 (ext_trans _ _ _ X2 X3) w Hw1) as (-> & _ & ->). split; [auto|].
        destruct result as [q|]; [|destruct Sl0 as [-> _]; destruct Hw].
        destruct Sl0 as [-> Sl0]. destruct Hw as [<-|[]]. destruct Sl0 as [->| ->]; eauto.
      * destruct (proj2 X3 b (proj1 Fb')) as (-> & _ & ->). rewrite Aab. eauto.
      * auto.
    + intros M one mul As U1 U2 r Hm x i j Hbase Hres.
      assert (Vb : r b = mpow one mul x (i + i)).
      { rewrite (Hm b base base); [rewrite Hbase; now apply PowAdd|apply in_or_app; right; now left|].
        destruct (proj2 X3 b (proj1 Fb')) as (_ & _ & ->). exact Aab. }
      assert (Va : r a = mpow one mul x (j + i)).
      { destruct result as [q|].
        - destruct Sl0 as [-> Sl0]. assert (Ha : In a (l_ops st1)) by apply Fa.
          destruct (proj2 (ext_trans _ _ _ X2 X3) a Ha) as (_ & _ & Ea).
          destruct Sl0 as [Sl0|Sl0]; rewrite Sl0 in Ea; rewrite (Hm a _ _ (in_or_app [a] _ a (or_introl (or_introl eq_refl))) Ea);
            rewrite Hbase, Hres, (PowAdd M one mul As U1); f_equal; lia.
        - destruct Sl0 as [-> ->]. rewrite Hbase, Hres. reflexivity. }
      rewrite (Vl M one mul As U1 U2 r) with (x := x) (i := i + i) (j := j + i); auto.
      * f_equal. rewrite Pos2Nat.inj_xI. lia.
      * intros w a0 b0 Hw. apply Hm. apply in_or_app. right. now right.
  - binv H. destruct x as [b st2]. cbn [fst snd] in *.
    binv E. apply numeric_type_inv in E0. pose proof Hb as [Fb1 Fb2]. rewrite Fb2 in E0. injection E0 as <-.
    apply Step in E as (L2 & X2 & Fb' & Ob & Mb & Ab); auto.
    assert (Aab : args (l_graph st2) b = [base; base]) by (destruct Ab as [->| ->]; reflexivity).
    assert (Hr2 : forall r, result = Some r -> float_in st2 r) by (intros r Er; eapply float_ext; eauto).
    destruct (squaring_ok p b result st2 v st' L2 Fb') as (L3 & X3 & Fv & _); auto.
    apply IH in H as (l & Ol & Nl & Ml & Vl); auto.
    exists (b :: l). split; [rewrite Ol, Ob; now rewrite <- app_assoc|]. split; [|split].
    + cbn [length ones Pos.size_nat]. rewrite Nl. assert (1 <= Pos.size_nat p) by (destruct p; cbn; lia). destruct result; lia.
    + intros w [<-|Hw]; [|auto]. destruct (proj2 X3 b (proj1 Fb')) as (-> & _ & ->). rewrite Aab. eauto.
    + intros M one mul As U1 U2 r Hm x i j Hbase Hres.
      assert (Vb : r b = mpow one mul x (i + i)).
      { rewrite (Hm b base base); [rewrite Hbase; now apply PowAdd|now left|].
        destruct (proj2 X3 b (proj1 Fb')) as (_ & _ & ->). exact Aab. }
      rewrite (Vl M one mul As U1 U2 r) with (x := x) (i := i + i) (j := j); auto.
      * f_equal. rewrite Pos2Nat.inj_xO. lia.
      * intros w a0 b0 Hw. apply Hm. now right.
  - destruct result as [r0|].
    + binv H. apply numeric_type_inv in E. pose proof Hb as [Fb1 Fb2]. rewrite Fb2 in E. injection E as <-.
      apply Step in H as (L2 & X2 & Fb' & Ob & Mb & Ab); auto.
      exists [v]. split; [assumption|]. split; [reflexivity|]. split.
      * intros w [<-|[]]. split; [assumption|]. destruct Ab as [->| ->]; eauto.
      * intros M one mul As U1 U2 r Hm x i j Hbase Hres. change (Pos.to_nat 1) with 1.
        destruct Ab as [Ab|Ab]; rewrite (Hm v _ _ (or_introl eq_refl) Ab); rewrite Hbase, Hres, (PowAdd M one mul As U1); f_equal; lia.
    + injection H as <- <-. exists []. rewrite app_nil_r. split; [reflexivity|]. split; [reflexivity|]. split; [intros w []|].
      intros M one mul As U1 U2 r Hm x i j Hbase ->. change (Pos.to_nat 1) with 1. rewrite Hbase. f_equal. lia.
Qed.
End Lowering.
