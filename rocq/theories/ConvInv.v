(** The state of the converter: what is true of it between two steps, and that moving a value into a block keeps it. *)
From Coq Require Import String List Arith ZArith Bool Lia Permutation.
From Verif Require Import Outcome NumProofs IrModel IrSpec IrProofs CfgModel CfgSpec CountProofs ConvModel ConvSpec ConvShape ConvBlocks ConvGroup.
Import ListNotations.
Open Scope outcome_scope.
Open Scope nat_scope.

Lemma upath_ext up up' : (forall t, up' t = up t) -> forall t p, upath up' t p -> upath up t p.
Proof.
  intros E t p. induction 1 as [t H|t a p Ha P IH].
  - apply up_root. congruence.
  - apply up_step with a; auto. now rewrite <- E.
Qed.
Lemma dom_ext up up' u t : (forall t, up' t = up t) -> dom up u t -> dom up' u t.
Proof. intros E D p P. apply D. now apply (upath_ext up up'). Qed.
Lemma enters_ext down up down' up' j i t : (forall t, down' t = down t) -> (forall t, up' t = up t) -> enters down up j i t -> enters down' up' j i t.
Proof. intros E1 E2 D p P. rewrite E1. apply D. now apply (upath_ext up up'). Qed.
Lemma splits_ext down up down' up' j b t : (forall t, down' t = down t) -> (forall t, up' t = up t) -> splits down up j b t -> splits down' up' j b t.
Proof. intros E1 E2 D p P. rewrite E1. apply D. now apply (upath_ext up up'). Qed.
Lemma region_ext down down' : (forall t, down' t = down t) -> forall b k bs, region down b k bs -> region down' b k bs.
Proof.
  intros E. induction 1.
  - constructor.
  - constructor. congruence.
  - apply region_step with x; auto. congruence.
  - apply region_branch with (l := l) (r := r) (j := j); auto. congruence.
Qed.
Lemma shape_ext n down up down' up' e : (forall t, down' t = down t) -> (forall t, up' t = up t) -> shape n down up e -> shape n down' up' e.
Proof.
  intros E1 E2 [SE SD SU SR (bs & R & Rall) SRt Sen Sex S0]. constructor.
  - intros a x. rewrite E1, E2. auto.
  - intros a. now rewrite E1.
  - intros a. now rewrite E2.
  - intros a x. rewrite E1. auto.
  - exists bs. split; auto. now apply (region_ext down).
  - now rewrite E2.
  - auto.
  - intros t. rewrite E1. auto.
  - now rewrite E1.
Qed.

Lemma all_of_true {B} (f : B -> outcome bool) l : all_of f l = Ok true -> forall x, In x l -> f x = Ok true.
Proof.
  induction l as [|y t IH]; intros E x; cbn in *; [tauto|]. destruct (f y) as [[]| | | |] eqn:F; cbn [bind] in E; try discriminate.
  intros [->|Hx]; auto.
Qed.
(** The search finds blocks on every way up. *)
Lemma dominated_dom up u : forall fuel t, dominated fuel up t u = Ok true -> dom up u t.
Proof.
  induction fuel as [|f IH]; intros t E; cbn in E; [discriminate|]. destruct (Nat.eqb_spec t u) as [Etu|N].
  - intros p P. rewrite <- Etu. destruct (upath_head _ _ _ P) as (q & ->). now left.
  - intros p P. destruct P as [t K|t a q Ha Q]; [rewrite K in E; discriminate|]. destruct (up t) as [|x l] eqn:Et; [discriminate|].
    right. apply (all_of_true (fun b => dominated f up b u) (x :: l) E a) in Ha. exact (IH a Ha q Q).
Qed.

Lemma before_front l v a x : before l a x -> before (v :: l) a x.
Proof. apply (before_right [v]). Qed.
Lemma before_first l v x : In x l -> before (v :: l) v x.
Proof. intros H. apply (before_app [v] l); [now left|auto]. Qed.

(** Operations the conversion adds. *)
Definition made (opts : list (nat * string)) (o : op) : Prop :=
  match o with OJump | OPhi | OCopy => True | OOutReq key => exists B, In (B, key) opts | _ => False end.

Section Inv.
Variables (A : algebra) (Q : selecting A) (T : typing) (g0 : graph) (ops0 : list name) (r0 : name -> D A).
Hypothesis P0 : program T g0 0 ops0.
Hypothesis C0 : consistent r0 g0 ops0.
Notation N0 := (g_next g0).
(** The values that may be moved so far: the operations of the program without the outputs that come later. *)
Variable ok : name -> Prop.
Hypothesis Ok1 : forall v, ok v -> In v ops0.
Hypothesis Ok2 : forall v a, ok v -> In a (args g0 v) -> ok a.
Notation oks l := (forall x, In x l -> ok x).

(** The part that is about the blocks: which values are where. *)
Record core (r : name -> D A) (g : graph) (ops down up : nat -> list nat) (n e : nat) : Prop := {
  c_shape : shape n down up e;
  c_use : def_use g;
  c_own : forall v t, In v (ops t) -> parent g v = S t;
  c_nodup : forall t, NoDup (ops t);
  c_avail : forall v t a u, In v (ops t) -> op_of g v <> OPhi -> In a (args g v) -> parent g a = S u ->
    dom up u t /\ In a (ops u) /\ (u = t -> before (ops t) a v);
  c_jump : forall v t, In v (ops t) -> op_of g v = OJump -> length (down t) = 2 /\ exists l, ops t = l ++ [v];
  c_two : forall t, length (down t) = 2 -> exists l jv cond, ops t = l ++ [jv] /\ op_of g jv = OJump /\ args g jv = [cond];
  c_phi : forall v o, In v (ops o) -> op_of g v = OPhi -> exists L R cl cr J l jv cond,
    args g v = [cl; cr] /\ In cl (ops L) /\ In cr (ops R) /\ L <> R /\ up o = [L; R] /\
    length (down J) = 2 /\ ops J = l ++ [jv] /\ args g jv = [cond] /\ enters down up J 0 L /\ enters down up J 1 R /\
    r v = (if truth Q (r cond) then r cl else r cr);
  c_val : forall v t, In v (ops t) -> op_of g v <> OPhi -> r v = sem A (op_of g v) (map r (args g v))
}.

(** The part that is about the values. *)
Record inv (r : name -> D A) (e : nat) (opts : list (nat * string)) (st : cstate) : Prop := {
  i_core : core r (s_g st) (fun t => bops (s_blocks st) t) (fun t => bdesc (s_blocks st) t) (fun t => banc (s_blocks st) t) (length (s_blocks st)) e;
  i_closed : closed_graph (s_g st);
  i_next : N0 <= g_next (s_g st);
  i_par : forall v t, parent (s_g st) v = S t -> In v (bops (s_blocks st) t);
  i_vis : forall v, In v (s_visited st) -> parent (s_g st) v <> 0;
  i_orig : forall v, v < N0 -> parent (s_g st) v <> 0 -> In v (s_visited st);
  i_src : forall v, v < N0 -> parent (s_g st) v <> 0 -> ok v;
  i_op : forall v, v < N0 -> (op_of (s_g st) v = op_of g0 v /\ args (s_g st) v = args g0 v) \/
    (op_of (s_g st) v = OPhi /\ op_of g0 v = OCond /\ parent (s_g st) v <> 0);
  i_new : forall v, N0 <= v < g_next (s_g st) -> parent (s_g st) v <> 0 /\ made opts (op_of (s_g st) v);
  i_up : forall a c, In a (args (s_g st) c) -> parent (s_g st) a <> 0 -> parent (s_g st) c <> 0;
  i_phi : forall v a, op_of (s_g st) v = OPhi -> In a (args (s_g st) v) -> parent (s_g st) a <> 0;
  i_r : forall v, v < N0 -> r v = r0 v;
  i_opt : forall B key, In (B, key) opts -> B < length (s_blocks st) /\ exists J l jv cq, length (bdesc (s_blocks st) J) = 2 /\
    bops (s_blocks st) J = l ++ [jv] /\ args (s_g st) jv = [cq] /\
    op_of (s_g st) cq = OOutReq key /\ args (s_g st) cq = [] /\ parent (s_g st) cq = S J /\
    splits (fun t => bdesc (s_blocks st) t) (fun t => banc (s_blocks st) t) J B 0;
  i_one : forall t, length (bdesc (s_blocks st) t) = 1 -> bops (s_blocks st) t <> [] \/ exists key, In (t, key) opts;
  i_rd : forall a c, In a (args (s_g st) c) -> a < N0 -> exists c0, In a (args g0 c0);
  i_ar : forall v, parent (s_g st) v <> 0 -> arity_ok (op_of (s_g st) v) (length (args (s_g st) v)) = true;
  i_ctl : forall a c, In a (args (s_g st) c) -> op_of (s_g st) a <> OJump /\
    forall key, op_of (s_g st) a = OOutReq key -> N0 <= a -> op_of (s_g st) c = OJump /\ parent (s_g st) c = parent (s_g st) a;
  i_req : forall x J key, N0 <= x -> op_of (s_g st) x = OOutReq key -> parent (s_g st) x = S J ->
    exists l r B, bdesc (s_blocks st) J = [l; r] /\ In B (banc (s_blocks st) r) /\ B <> J
}.

Lemma core_ext r g ops down up n e ops' down' up' : (forall t, ops' t = ops t) -> (forall t, down' t = down t) -> (forall t, up' t = up t) ->
  core r g ops down up n e -> core r g ops' down' up' n e.
Proof.
  intros E1 E2 E3 [Sh U Ow ND Av Ju Tw Ph Va]. constructor.
  - now apply (shape_ext n down up).
  - auto.
  - intros v t. rewrite E1. auto.
  - intros t. now rewrite E1.
  - intros v t a u. rewrite !E1. intros I1 I2 I3 I4. destruct (Av v t a u I1 I2 I3 I4) as (X & Y & Z). split; auto. now apply (dom_ext up).
  - intros v t. rewrite E1, E2. auto.
  - intros t. rewrite E1, E2. auto.
  - intros v o. rewrite E1, E3. intros I1 I2. destruct (Ph v o I1 I2) as (L & R & cl & cr & J & l & jv & cond & X1 & X2 & X3 & X4 & X5 & X6 & X7 & X8 & X9 & X10 & X11).
    exists L, R, cl, cr, J, l, jv, cond. rewrite !E1, E2. split; [auto|]. split; [auto|]. split; [auto|]. split; [auto|]. split; [auto|]. split; [auto|]. split; [auto|]. split; [auto|].
    split; [now apply (enters_ext down up)|]. split; [now apply (enters_ext down up)|auto].
  - intros v t. rewrite E1. apply Va.
Qed.

Lemma in_block_lt (bl : list cblock) v t : In v (bops bl t) -> t < length bl.
Proof. intros H. destruct (Nat.lt_ge_cases t (length bl)) as [|G]; auto. rewrite nth_block_out in H by auto. contradiction. Qed.

Lemma ok_lt v : ok v -> v < N0.
Proof. intros H. apply (bo_fresh g0 0 ops0 (proj1 P0)). auto. Qed.

(** A value of the program that was not moved yet is as it was. *)
Lemma unplaced_same r e opts st v : inv r e opts st -> v < N0 -> parent (s_g st) v = 0 -> op_of (s_g st) v = op_of g0 v /\ args (s_g st) v = args g0 v.
Proof. intros I L E. destruct (i_op _ _ _ _ I v L) as [|(_ & _ & K)]; auto. congruence. Qed.
Lemma unvisited_unplaced r e opts st v : inv r e opts st -> v < N0 -> is_visited st v = false -> parent (s_g st) v = 0.
Proof.
  intros I L E. destruct (Nat.eq_dec (parent (s_g st) v) 0) as [|N]; auto. apply (i_orig _ _ _ _ I v L) in N.
  apply mem_in in N. unfold is_visited in E. congruence.
Qed.

Definition frame (o : nat) (r : name -> D A) (st : cstate) (r' : name -> D A) (st' : cstate) : Prop :=
  g_next (s_g st) <= g_next (s_g st') /\ length (s_blocks st) <= length (s_blocks st') /\
  (forall v, v < g_next (s_g st) -> r' v = r v) /\
  (forall v, parent (s_g st) v <> 0 -> parent (s_g st') v = parent (s_g st) v) /\
  (forall v t, op_of (s_g st') v = OPhi -> parent (s_g st') v = S t -> t < length (s_blocks st) -> t <> o ->
     op_of (s_g st) v = OPhi /\ parent (s_g st) v = S t) /\
  (forall t, t < length (s_blocks st) -> exists l, bops (s_blocks st') t = l ++ bops (s_blocks st) t).
Lemma frame_refl o r st : frame o r st r st.
Proof. unfold frame. repeat (split; auto). intros t _. now exists []. Qed.
Lemma frame_trans o o' r st r1 st1 r2 st2 : (o' = o \/ length (s_blocks st) <= o') ->
  frame o r st r1 st1 -> frame o' r1 st1 r2 st2 -> frame o r st r2 st2.
Proof.
  clear Ok1 Ok2 ok.
  intros Ho (A1 & A2 & A3 & A4 & A5 & A6) (B1 & B2 & B3 & B4 & B5 & B6). split; [lia|]. split; [lia|]. split; [|split; [|split]].
  - intros v L. rewrite B3, A3; auto. lia.
  - intros v N. rewrite B4; auto. rewrite A4; auto.
  - intros v t E P L Nt. assert (t <> o') by (destruct Ho; [congruence|lia]). destruct (B5 v t E P ltac:(lia)) as [E1 P1]; auto.
  - intros t L. destruct (A6 t L) as (l & X). destruct (B6 t ltac:(lia)) as (l' & Y). exists (l' ++ l). rewrite Y, X. apply app_assoc.
Qed.

(** Moving a value into a block. *)
Lemma place_inv r e opts st v b st' : inv r e opts st -> ok v -> b < length (s_blocks st) -> is_visited st v = false ->
  all_consumers_visited st v = true -> all_of (consumer_below st b) (cons_of (s_g st) v) = Ok true -> place st v b = Ok st' ->
  inv r e opts st' /\ frame b r st r st' /\ parent (s_g st') v = S b /\
  (forall x, op_of (s_g st') x = op_of (s_g st) x) /\ (forall x, args (s_g st') x = args (s_g st) x) /\ (forall x, cons_of (s_g st') x = cons_of (s_g st) x) /\
  (forall x, In x (s_visited st') <-> x = v \/ In x (s_visited st)) /\ (forall x, x <> v -> parent (s_g st') x = parent (s_g st) x) /\
  length (s_blocks st') = length (s_blocks st) /\ (forall t, banc (s_blocks st') t = banc (s_blocks st) t) /\ (forall t, bdesc (s_blocks st') t = bdesc (s_blocks st) t) /\
  bops (s_blocks st') b = v :: bops (s_blocks st) b.
Proof.
  intros I Hv Lb Nv Cv Db E. pose proof (ok_lt v Hv) as Lv. pose proof (unvisited_unplaced _ _ _ _ v I Lv Nv) as Pv.
  destruct (unplaced_same _ _ _ _ v I Lv Pv) as [Ov Av]. 
  unfold place in E. destruct (set_parent (s_g st) v b) as [g'| | | |] eqn:Ep; cbn [bind] in E; try discriminate. injection E as <-.
  destruct (set_parent_spec _ _ _ _ Ep) as (Nj & Gn & Go & Ga & Gc & Gp).
  assert (BN : forall t, nth_block (s_blocks (visit (insert_front (mks g' (s_blocks st) (s_visited st)) b [v]) [v])) t =
     if t =? b then with_ops (fun ops => [v] ++ ops) (nth_block (s_blocks st) t) else nth_block (s_blocks st) t).
  { intros t. cbn [visit insert_front s_blocks]. now apply update_nth. }
  set (st' := visit (insert_front (mks g' (s_blocks st) (s_visited st)) b [v]) [v]) in *.
  assert (Eg : s_g st' = g') by reflexivity. 
  assert (Bo : forall t, bops (s_blocks st') t = if t =? b then v :: bops (s_blocks st) t else bops (s_blocks st) t) by (intros t; rewrite BN; destruct (t =? b); reflexivity).
  assert (Ba : forall t, banc (s_blocks st') t = banc (s_blocks st) t) by (intros t; rewrite BN; destruct (t =? b); reflexivity).
  assert (Bd : forall t, bdesc (s_blocks st') t = bdesc (s_blocks st) t) by (intros t; rewrite BN; destruct (t =? b); reflexivity).
  assert (Bl : length (s_blocks st') = length (s_blocks st)) by (cbn; apply update_length).
  assert (Vi : forall x, In x (s_visited st') <-> x = v \/ In x (s_visited st)) by (intros x; cbn; intuition congruence).
  clearbody st'. subst g'. clear BN.
  pose proof (i_core _ _ _ _ I) as [Sh U Ow ND Avl Ju Tw Ph Va].
  assert (Nin : forall t, ~ In v (bops (s_blocks st) t)) by (intros t K; apply Ow in K; congruence).
  assert (Mono : forall x t, In x (bops (s_blocks st) t) -> In x (bops (s_blocks st') t)) by (intros x t K; rewrite Bo; destruct (t =? b); [now right|auto]).
  assert (MonoB : forall a x t, before (bops (s_blocks st) t) a x -> before (bops (s_blocks st') t) a x) by (intros a x t K; rewrite Bo; destruct (t =? b); [now apply before_front|auto]).
  assert (Inv : forall x t, In x (bops (s_blocks st') t) -> (x = v /\ t = b) \/ (x <> v /\ In x (bops (s_blocks st) t))).
  { intros x t K. rewrite Bo in K. destruct (Nat.eqb_spec t b) as [Et|]; [destruct K as [K|K]; [left; auto|]|].
    - right. split; auto. intros ->. exact (Nin _ K).
    - right. split; auto. intros ->. exact (Nin _ K). }
  assert (Cs : forall c, In v (args (s_g st) c) -> parent (s_g st) c <> 0 /\ exists t, parent (s_g st) c = S t /\ dom (fun t => banc (s_blocks st) t) b t).
  { intros c Hc. apply (def_use_in _ (c_use _ _ _ _ _ _ _ (i_core _ _ _ _ I))) in Hc. unfold all_consumers_visited in Cv. rewrite forallb_forall in Cv. pose proof (Cv c Hc) as K.
    apply mem_in in K. apply (i_vis _ _ _ _ I) in K. split; auto. apply (all_of_true _ _ Db c) in Hc. unfold consumer_below in Hc.
    destruct (parent (s_g st) c) as [|t]; [congruence|]. exists t. split; auto. apply dominated_dom in Hc. exact Hc. }
  assert (Nself : ~ In v (args (s_g st) v)) by (intros K; destruct (Cs v K) as [N _]; congruence).
  assert (Pne : forall x, parent (s_g st) x <> 0 -> x <> v) by (intros x N ->; congruence).
  split; [|split; [|split; [|split; [|split; [|split; [|split; [|split; [|split; [|split; [|split]]]]]]]]]]; auto.
  - constructor.
    + constructor.
      * rewrite Bl. now apply (shape_ext _ (fun t => bdesc (s_blocks st) t) (fun t => banc (s_blocks st) t)).
      * intros a c. rewrite Gc, Ga. apply U.
      * intros x t K. rewrite Gp. destruct (Inv x t K) as [[-> ->]|[N K']]; [now rewrite Nat.eqb_refl|].
        destruct (Nat.eqb_spec x v); [contradiction|auto].
      * intros t. rewrite Bo. destruct (t =? b); [constructor; auto|auto].
      * intros x t a u K Np Ha Pa. rewrite Go in Np. rewrite Ga in Ha. rewrite Gp in Pa.
        destruct (Inv x t K) as [[-> ->]|[Nx K']].
        -- destruct (Nat.eqb_spec a v) as [->|Na]; [contradiction|]. exfalso. apply (i_up _ _ _ _ I a v); auto. congruence.
        -- destruct (Nat.eqb_spec a v) as [->|Na].
           ++ injection Pa as <-. destruct (Cs x Ha) as (_ & t' & Pt & Dt). rewrite (Ow x t K') in Pt. injection Pt as <-.
              split; [now apply (dom_ext (fun t => banc (s_blocks st) t))|]. split; [rewrite Bo, Nat.eqb_refl; now left|].
              intros <-. rewrite Bo, Nat.eqb_refl. now apply before_first.
           ++ destruct (Avl x t a u K' Np Ha Pa) as (X & Y & Z). split; [now apply (dom_ext (fun t => banc (s_blocks st) t))|]. split; auto.
      * intros x t K Ej. rewrite Go in Ej. rewrite Bd. destruct (Inv x t K) as [[-> ->]|[Nx K']].
        -- rewrite Ej in Nj. discriminate.
        -- destruct (Ju x t K' Ej) as (X & l & Y). split; auto. rewrite Bo. destruct (t =? b); [exists (v :: l); now rewrite Y|eauto].
      * intros t K. rewrite Bd in K. destruct (Tw t K) as (l & jv & cond & X & Y & Z). rewrite Bo. destruct (t =? b).
        -- exists (v :: l), jv, cond. rewrite X, Go, Ga. auto.
        -- exists l, jv, cond. rewrite Go, Ga. auto.
      * intros x o K Ex. rewrite Go in Ex. destruct (Inv x o K) as [[-> ->]|[Nx K']].
        -- exfalso. rewrite Ov in Ex. exact (proj1 (bo_plain g0 0 ops0 (proj1 P0) v (Ok1 v Hv)) Ex).
        -- destruct (Ph x o K' Ex) as (L & R & cl & cr & J & l & jv & cond & X1 & X2 & X3 & X4 & X5 & X6 & X7 & X8 & X9 & X10 & X11).
           exists L, R, cl, cr, J, (if J =? b then v :: l else l), jv, cond. rewrite !Ga, Bd, Ba.
           split; [auto|]. split; [auto|]. split; [auto|]. split; [auto|]. split; [auto|]. split; [auto|]. split; [rewrite Bo; destruct (J =? b); now rewrite X7|]. split; [auto|].
           split; [|split; auto]; [apply (enters_ext (fun t => bdesc (s_blocks st) t) (fun t => banc (s_blocks st) t)); auto| apply (enters_ext (fun t => bdesc (s_blocks st) t) (fun t => banc (s_blocks st) t)); auto].
      * intros x t K Np. rewrite Go in *. rewrite Ga. destruct (Inv x t K) as [[-> ->]|[Nx K']]; [|apply (Va x t); auto].
        rewrite Ov, Av. rewrite (i_r _ _ _ _ I v Lv). rewrite (C0 v (Ok1 v Hv)). f_equal. apply map_ext_in. intros a Ha. symmetry. apply (i_r _ _ _ _ I). apply ok_lt. exact (Ok2 v a Hv Ha).
    + destruct (i_closed _ _ _ _ I) as [_ Ar Fr]. constructor.
      * intros a c. rewrite Gc, Ga. apply U.
      * intros x a. rewrite Ga, Gn. apply Ar.
      * intros x L. rewrite Gn in L. rewrite Ga, Gp. destruct (Nat.eqb_spec x v) as [->|]; [|auto]. pose proof (i_next _ _ _ _ I). lia.
    + rewrite Gn. apply (i_next _ _ _ _ I).
    + intros x t. rewrite Gp, Bo. destruct (Nat.eqb_spec x v) as [->|Nx].
      * intros K. injection K as <-. rewrite Nat.eqb_refl. now left.
      * intros K. apply (i_par _ _ _ _ I) in K. destruct (t =? b); [now right|auto].
    + intros x K. rewrite Gp. destruct (Nat.eqb_spec x v); [discriminate|]. apply (i_vis _ _ _ _ I). apply Vi in K. tauto.
    + intros x L K. apply Vi. rewrite Gp in K. destruct (Nat.eqb_spec x v); [auto|]. right. apply (i_orig _ _ _ _ I); auto.
    + intros x L K. rewrite Gp in K. destruct (Nat.eqb_spec x v) as [->|]; [auto|]. apply (i_src _ _ _ _ I); auto.
    + intros x L. rewrite Go, Ga, Gp. destruct (i_op _ _ _ _ I x L) as [|(X & Y & Z)]; auto. right. split; auto. split; auto. destruct (x =? v); [discriminate|auto].
    + intros x L. rewrite Gn in L. rewrite Go, Gp. destruct (i_new _ _ _ _ I x L) as [X Y]. split; auto. destruct (x =? v); [discriminate|auto].
    + intros a c Ha K. rewrite Ga in Ha. rewrite Gp in *. destruct (Nat.eqb_spec c v); [discriminate|]. destruct (Nat.eqb_spec a v) as [->|].
      * apply (Cs c Ha).
      * apply (i_up _ _ _ _ I a c); auto.
    + intros x a. rewrite Go, Ga, Gp. intros X Y. pose proof (i_phi _ _ _ _ I x a X Y). destruct (a =? v); [discriminate|auto].
    + apply (i_r _ _ _ _ I).
    + intros B key Hx. destruct (i_opt _ _ _ _ I B key Hx) as (X0 & J & l & jv & cq & X3 & X4 & X5 & X6 & X7 & X8 & X9).
      split; [lia|]. exists J, (if J =? b then v :: l else l), jv, cq. rewrite Go, !Ga, !Gp, Bd. split; [auto|]. split; [rewrite Bo; destruct (J =? b); now rewrite X4|].
      split; [auto|]. split; [auto|]. split; [auto|]. split; [destruct (Nat.eqb_spec cq v); [subst; congruence|auto]|].
      now apply (splits_ext (fun t => bdesc (s_blocks st) t) (fun t => banc (s_blocks st) t)).
    + intros t K. rewrite Bd in K. rewrite Bo. destruct (t =? b); [left; discriminate|]. apply (i_one _ _ _ _ I t K).
    + intros a c. rewrite Ga. apply (i_rd _ _ _ _ I).
    + intros x K. rewrite Go, Ga. rewrite Gp in K. destruct (Nat.eqb_spec x v) as [Exv|]; [|apply (i_ar _ _ _ _ I x K)]. rewrite Exv, Ov, Av. apply (bo_arity g0 0 ops0 (proj1 P0)). auto.
    + intros a c Ha. rewrite Ga in Ha. rewrite !Go, !Gp. destruct (i_ctl _ _ _ _ I a c Ha) as [X Y]. split; auto. intros key Ek La.
      destruct (Y key Ek La) as [Y1 Y2]. split; auto. destruct (Nat.eqb_spec a v); [lia|]. destruct (Nat.eqb_spec c v) as [Ecv|]; auto.
      rewrite Ecv in Y1. rewrite Y1 in Nj. discriminate.
    + intros x J key Lx. rewrite Go, Gp. destruct (Nat.eqb_spec x v); [lia|]. intros X Y. destruct (i_req _ _ _ _ I x J key Lx X Y) as (l & r1 & B & Z).
      exists l, r1, B. now rewrite Bd, Ba.
  - split; [lia|]. split; [lia|]. split; [auto|]. split; [|split].
    + intros x N. rewrite Gp. destruct (Nat.eqb_spec x v); [subst; congruence|auto].
    + intros x t. rewrite Go, Gp. intros X Y _ Nt. split; auto. destruct (Nat.eqb_spec x v); [congruence|auto].
    + intros t _. rewrite Bo. destruct (t =? b); [now exists [v]|now exists []].
  - rewrite Gp. now rewrite Nat.eqb_refl.
  - intros x Nx. rewrite Gp. destruct (Nat.eqb_spec x v); [contradiction|auto].
  - now rewrite Bo, Nat.eqb_refl.
Qed.

(** What the loop leaves for later: selects none of whose consumers is anywhere but below the block. *)
Definition ready_select (st : cstate) (b : nat) (v : name) : Prop :=
  ok v /\ is_visited st v = false /\ op_of (s_g st) v = OCond /\
  (forall c, In v (args (s_g st) c) -> exists t, parent (s_g st) c = S t /\ dom (fun t => banc (s_blocks st) t) b t).

Lemma ready_operands_in st v x : In x (ready_operands st v) -> In x (args (s_g st) v).
Proof. unfold ready_operands. rewrite filter_In. tauto. Qed.

Lemma loop_inv ct b : forall fuel st queue conds deferred st' conds' deferred' r e opts,
  process_non_conditionals fuel ct st queue conds deferred b = Ok (st', conds', deferred') ->
  inv r e opts st -> b < length (s_blocks st) -> oks queue -> oks deferred -> (forall v, In v conds -> ct = true /\ ready_select st b v) ->
  (forall v t, op_of (s_g st) v = OPhi -> parent (s_g st) v = S t -> t <> b) ->
  inv r e opts st' /\ frame b r st r st' /\ length (s_blocks st') = length (s_blocks st) /\ oks deferred' /\ (forall v, In v conds' -> ct = true /\ ready_select st' b v) /\
  (forall v t, op_of (s_g st') v = OPhi -> parent (s_g st') v = S t -> t <> b) /\
  (forall v q, queue = v :: q -> is_sink (op_of g0 v) = true -> cons_of (s_g st) v = [] -> parent (s_g st) v = 0 -> bops (s_blocks st) b = [] ->
     exists l, bops (s_blocks st') b = l ++ [v]) /\
  (forall v, In v queue -> is_sink (op_of g0 v) = true -> cons_of (s_g st) v = [] -> parent (s_g st) v = 0 -> parent (s_g st') v = S b).
Proof.
  induction fuel as [|f IH]; intros st queue conds deferred st' conds' deferred' r e opts E I Lb Hq Hd Hc Hp; cbn [process_non_conditionals] in E; [discriminate|].
  destruct queue as [|top q].
  - injection E as <- <- <-. split; [auto|]. split; [apply frame_refl|]. split; [auto|]. split; [auto|]. split; [auto|]. split; [auto|]. split; [discriminate|]. intros v [].
  - assert (Ht : ok top) by (apply Hq; now left). assert (Hq' : oks q) by (intros x Hx; apply Hq; now right).
    pose proof (ok_lt top Ht) as Lt.
    destruct (is_visited st top) eqn:Ev.
    + destruct (IH _ _ _ _ _ _ _ _ _ _ E I Lb Hq' Hd Hc Hp) as (X1 & X2 & X3 & X4 & X5 & X6 & X8 & X7). split; [auto|]. split; [auto|]. split; [auto|]. split; [auto|]. split; [auto|]. split; [auto|].
      assert (Kz : parent (s_g st) top <> 0) by (apply mem_in in Ev; now apply (i_vis _ _ _ _ I) in Ev).
      split; [intros v q' Eq _ _ K; injection Eq as <- <-; contradiction|].
      intros v [<-|Hv]; auto. intros _ _ K. apply mem_in in Ev. apply (i_vis _ _ _ _ I) in Ev. contradiction.
    + destruct (all_consumers_visited st top) eqn:Ec; cbn [negb] in E; [|discriminate].
      pose proof (unvisited_unplaced _ _ _ _ top I Lt Ev) as Pt.
      destruct (unplaced_same _ _ _ _ top I Lt Pt) as [Ot At].
      destruct (all_of (consumer_below st b) (cons_of (s_g st) top)) as [[]| | | |] eqn:Ea; cbn [bind negb] in E; try discriminate.
      * destruct (is_cond (op_of (s_g st) top) && ct) eqn:Ecnd.
        -- apply andb_true_iff in Ecnd. destruct Ecnd as [Ecnd Ect].
           destruct (IH _ _ _ _ _ _ _ _ _ _ E I Lb Hq' Hd) as (X1 & X2 & X3 & X4 & X5 & X6 & X8 & X7); auto.
           { intros v Hv. rewrite in_app_iff in Hv. destruct Hv as [Hv|[<-|[]]]; auto. split; [auto|]. split; [auto|]. split; [auto|]. split; [destruct (op_of (s_g st) top); congruence || discriminate|].
             intros c Hcc. apply (def_use_in _ (cg_use _ (i_closed _ _ _ _ I))) in Hcc. apply (all_of_true _ _ Ea c) in Hcc. unfold consumer_below in Hcc.
             destruct (parent (s_g st) c) as [|t]; [discriminate|]. exists t. split; auto. apply dominated_dom in Hcc. exact Hcc. }
           split; [auto|]. split; [auto|]. split; [auto|]. split; [auto|]. split; [auto|]. split; [auto|].
           split; [intros v q' Eq K; injection Eq as <- <-; rewrite <- Ot in K; destruct (op_of (s_g st) top); discriminate|].
           intros v [<-|Hv]; auto. intros K. rewrite <- Ot in K. destruct (op_of (s_g st) top); discriminate.
        -- destruct (place st top b) as [st1| | | |] eqn:Ep; cbn [bind] in E; try discriminate.
           destruct (place_inv _ _ _ _ _ _ _ I Ht Lb Ev Ec Ea Ep) as (I1 & F1 & P1 & Go & Ga & Gc & Vi & Gp & Bl & Ba & Bd & Bb).
           destruct (IH _ _ _ _ _ _ _ _ _ _ E I1) as (X1 & X2 & X3 & X4 & X5 & X6 & X8 & X7).
           ++ lia.
           ++ intros x Hx. rewrite in_app_iff in Hx. destruct Hx as [Hx|Hx]; auto. apply ready_operands_in in Hx. rewrite Ga, At in Hx. exact (Ok2 top x Ht Hx).
           ++ auto.
           ++ intros v Hv. destruct (Hc v Hv) as (Y0 & Y1 & Y2 & Y3 & Y4).
              assert (Nv : v <> top) by (intros ->; rewrite Y3, Y0 in Ecnd; discriminate).
              split; [auto|]. split; [auto|]. split; [|split; [now rewrite Go|]].
              ** unfold is_visited in *. destruct (mem v (s_visited st1)) eqn:Em; auto. apply mem_in, Vi in Em. destruct Em as [|Em]; [contradiction|]. apply mem_in in Em. congruence.
              ** intros c Hcc. rewrite Ga in Hcc. destruct (Y4 c Hcc) as (t & Y5 & Y6). exists t. split; [|now apply (dom_ext (fun t => banc (s_blocks st) t))].
                 rewrite Gp; auto. intros ->. congruence.
           ++ intros v t Eo Epv. rewrite Go in Eo. destruct (Nat.eq_dec v top) as [->|N]; [|rewrite Gp in Epv by auto; eauto].
              exfalso. rewrite Ot in Eo. exact (proj1 (bo_plain g0 0 ops0 (proj1 P0) top (Ok1 top Ht)) Eo).
           ++ split; [auto|]. split; [apply (frame_trans b b _ _ _ _ _ _ (or_introl eq_refl) F1 X2)|]. split; [lia|]. split; [auto|]. split; [auto|]. split; [auto|].
              split; [intros v q' Eq _ _ _ Kb; injection Eq as <- <-; destruct X2 as (_ & _ & _ & _ & _ & X2); destruct (X2 b ltac:(lia)) as (l & Z); exists l; now rewrite Z, Bb, Kb|].
              intros v Hv Sv Cv Pv. destruct (Nat.eq_dec v top) as [->|N].
              ** destruct X2 as (_ & _ & _ & X2 & _). rewrite X2; congruence.
              ** destruct Hv as [|Hv]; [congruence|]. apply X7; auto; [rewrite in_app_iff; auto|now rewrite Gc|now rewrite Gp].
      * destruct (IH _ _ _ _ _ _ _ _ _ _ E I Lb Hq') as (X1 & X2 & X3 & X4 & X5 & X6 & X8 & X7); auto.
        { intros x Hx. rewrite in_app_iff in Hx. destruct Hx as [|[<-|[]]]; auto. }
        split; [auto|]. split; [auto|]. split; [auto|]. split; [auto|]. split; [auto|]. split; [auto|].
        split; [intros v q' Eq _ K; injection Eq as <- <-; rewrite K in Ea; discriminate|].
        intros v [<-|Hv]; auto. intros _ K. rewrite K in Ea. discriminate.
Qed.
End Inv.
