(** The converter always succeeds: no assertion fails, everything is moved, nothing is left. *)
From Coq Require Import String List Arith ZArith Bool Lia Permutation.
From Verif Require Import Outcome NumProofs IrModel IrSpec IrProofs CfgModel CfgSpec CountProofs ConvModel ConvSpec ConvShape ConvBlocks ConvGroup ConvInv ConvBranch ConvProcess ConvOptional ConvConvert ConvCopies ConvRun ConvProofs.
Import ListNotations.
Open Scope outcome_scope.
Open Scope nat_scope.

(** * Sums over what is not visited yet *)
Lemma sum_le {B} (f f' : B -> nat) l : (forall x, In x l -> f' x <= f x) -> list_sum (map f' l) <= list_sum (map f l).
Proof. unfold list_sum. induction l as [|x t IH]; intros H; cbn; [lia|]. pose proof (H x (or_introl eq_refl)). specialize (IH (fun y K => H y (or_intror K))). lia. Qed.
Lemma sum_perm l l' : Permutation l l' -> list_sum l = list_sum l'.
Proof. unfold list_sum. induction 1; cbn; lia. Qed.
Lemma filter_le {B} (f : B -> bool) l : length (filter f l) <= length l.
Proof. induction l as [|x l IH]; cbn; [lia|]. destruct (f x); cbn; lia. Qed.
Lemma sum_app l l' : list_sum (l ++ l') = list_sum l + list_sum l'.
Proof. unfold list_sum. induction l; cbn; lia. Qed.
Lemma split_off (l vs : list nat) : NoDup vs -> incl vs l -> exists rest, Permutation l (vs ++ rest).
Proof.
  revert l. induction vs as [|v vs IH]; intros l ND H; [now exists l|]. inversion ND as [|? ? Nv ND']; subst.
  destruct (in_split v l (H v (or_introl eq_refl))) as (l1 & l2 & ->). destruct (IH (l1 ++ l2) ND') as (rest & P).
  - intros x Hx. pose proof (H x (or_intror Hx)) as K. rewrite in_app_iff in *. destruct K as [|[->|]]; auto. contradiction.
  - exists rest. rewrite <- Permutation_middle. cbn. now constructor.
Qed.
Lemma sum_drop (f f' : nat -> nat) l vs : NoDup vs -> incl vs l -> (forall x, In x l -> f' x <= f x) -> (forall x, In x vs -> f' x = 0) ->
  list_sum (map f' l) + list_sum (map f vs) <= list_sum (map f l).
Proof.
  intros ND I Le Z. destruct (split_off l vs ND I) as (rest & P).
  rewrite (sum_perm _ _ (Permutation_map f P)), (sum_perm _ _ (Permutation_map f' P)), !map_app, !sum_app.
  assert (K : list_sum (map f' vs) = 0). { clear -Z. unfold list_sum in *. induction vs as [|x t IH]; cbn; auto. rewrite (Z x (or_introl eq_refl)), IH; auto. intros y Hy. apply Z. now right. }
  assert (K2 : list_sum (map f' rest) <= list_sum (map f rest)). { apply sum_le. intros x Hx. apply Le. apply (Permutation_in x (Permutation_sym P)). apply in_app_iff. auto. }
  lia.
Qed.

(** * The search for dominators ends *)
Fixpoint chain (up : nat -> list nat) (l : list nat) : Prop :=
  match l with
  | a :: (b :: _) as t => In b (up a) /\ chain up t
  | _ => True
  end.
Lemma all_of_total {B} (f : B -> outcome bool) l : (forall x, In x l -> exists b, f x = Ok b) -> exists b, all_of f l = Ok b.
Proof.
  induction l as [|x t IH]; intros H; cbn; [eauto|]. destruct (H x (or_introl eq_refl)) as (b & ->). cbn [bind]. destruct b; [|eauto].
  apply IH. intros y Hy. apply H. now right.
Qed.
Lemma all_of_bad {B} (f : B -> outcome bool) l : (exists b, all_of f l = Ok b) \/ exists x, In x l /\ ~ exists b, f x = Ok b.
Proof.
  induction l as [|x t IH]; cbn; [eauto|]. destruct (f x) as [b| | | |] eqn:E; cbn [bind]; try (right; exists x; split; [now left|intros (b & K); congruence]).
  destruct b; [|eauto]. destruct IH as [|(y & Hy & K)]; auto. right. exists y. auto.
Qed.
Lemma dominated_or up u : forall f t, (exists b, dominated f up t u = Ok b) \/ exists l, chain up (t :: l) /\ length l = f.
Proof.
  induction f as [|f IH]; intros t; cbn [dominated]; [right; exists []; cbn; auto|]. destruct (t =? u); [left; eauto|].
  destruct (up t) as [|x q] eqn:E; [left; eauto|]. destruct (all_of_bad (fun b => dominated f up b u) (x :: q)) as [K|(y & Hy & K)]; [auto|].
  right. destruct (IH y) as [Z|(l & C & L)]; [contradiction|]. exists (y :: l). split; [|cbn; lia]. cbn [chain]. rewrite E. auto.
Qed.
Lemma chain_rank up (rank : nat -> nat) : (forall a b, In b (up a) -> rank a < rank b) -> forall l a, chain up (a :: l) -> forall x, In x l -> rank a < rank x.
Proof.
  intros H. induction l as [|b l IH]; intros a C x; [intros []|]. destruct C as [C1 C2]. apply H in C1. intros [<-|Hx]; auto. specialize (IH b C2 x Hx). lia.
Qed.
Lemma chain_nodup up rank : (forall a b, In b (up a) -> rank a < rank b) -> forall l, chain up l -> NoDup l.
Proof.
  intros H. induction l as [|a l IH]; intros C; constructor.
  - intros K. pose proof (chain_rank up rank H l a C a K). lia.
  - apply IH. destruct l; [exact I|apply C].
Qed.
Lemma dominated_total n down up e : shape n down up e -> forall t u, t < n -> exists b, dominated (S n) up t u = Ok b.
Proof.
  intros Sh t u Lt. destruct (dominated_or up u (S n) t) as [|(l & C & L)]; auto. exfalso.
  destruct (shape_acyclic _ _ _ _ Sh) as [rank Hr].
  assert (R : forall a b, In b (up a) -> rank a < rank b) by (intros a b K; apply Hr; now apply (sh_edge _ _ _ _ Sh)).
  pose proof (chain_nodup up rank R (t :: l) C) as ND.
  assert (B : forall x, In x (t :: l) -> In x (seq 0 n)).
  { clear -C Sh Lt. revert t Lt C. induction l as [|y l IH]; intros t Lt C x [<-|Hx]; try (apply in_seq; lia); [contradiction|].
    destruct C as [C1 C2]. apply (IH y); auto. apply (sh_edge _ _ _ _ Sh) in C1. apply (sh_range _ _ _ _ Sh) in C1. lia. }
  apply (NoDup_incl_length ND) in B. rewrite seq_length in B. cbn in B. lia.
Qed.
(** The entry is above everything. *)
Lemma root_entry n down up e t : shape n down up e -> t < n -> up t = [] -> t = e.
Proof.
  intros Sh Lt Z. destruct (Nat.eq_dec t e) as [|N]; auto. exfalso. destruct (sh_region _ _ _ _ Sh) as (bs & R & Ha).
  apply (region_reached_edge _ _ _ _ R t); auto; [now apply Ha|]. intros a K. apply (sh_edge _ _ _ _ Sh) in K. rewrite Z in K. contradiction.
Qed.
Lemma all_of_false {B} (f : B -> outcome bool) l : all_of f l = Ok false -> exists x, In x l /\ f x = Ok false.
Proof.
  induction l as [|x t IH]; cbn; [discriminate|]. destruct (f x) as [[]| | | |] eqn:E; cbn [bind]; try discriminate.
  - intros K. destruct (IH K) as (y & Y1 & Y2). eauto.
  - eauto.
Qed.
Lemma dominated_entry n down up e : shape n down up e -> forall f t, t < n -> dominated f up t e <> Ok false.
Proof.
  intros Sh. induction f as [|f IH]; intros t Lt; cbn [dominated]; [discriminate|]. destruct (Nat.eqb_spec t e) as [|N]; [discriminate|].
  destruct (up t) as [|x q] eqn:E; [pose proof (root_entry _ _ _ _ t Sh Lt E); congruence|]. intros K. apply all_of_false in K. destruct K as (y & Y1 & Y2).
  apply (IH y); auto. assert (In y (up t)) as Z by now rewrite E. apply (sh_edge _ _ _ _ Sh) in Z. apply (sh_range _ _ _ _ Sh) in Z. tauto.
Qed.

Lemma create_total st b o t l : arity_ok o (length l) = true -> exists st' v, create_operation st b o t l = Ok (st', v).
Proof. intros E. unfold create_operation, push_value. rewrite E. cbn [bind]. eauto. Qed.
(** * Edges *)
Lemma in_set_false x l : ~ In x l -> in_set x l = false.
Proof. intros H. destruct (in_set x l) eqn:E; auto. apply in_set_spec in E. contradiction. Qed.
Lemma in_set_true x l : In x l -> in_set x l = true.
Proof. apply in_set_spec. Qed.
Lemma add_descendant_total bl a b : a < length bl -> b < length bl -> ~ In b (bdesc bl a) -> ~ In a (banc bl b) -> exists bl', add_descendant bl a b = Ok bl'.
Proof.
  intros La Lb N1 N2. unfold add_descendant, add_ancestor. rewrite (in_set_false b _ N1).
  replace (banc (update bl a (with_desc (fun l => l ++ [b]))) b) with (banc bl b); [rewrite (in_set_false a _ N2); eauto|].
  rewrite update_nth by auto. destruct (b =? a); reflexivity.
Qed.
Definition fits (g : graph) (bl : list cblock) (a : nat) : Prop :=
  exists l v, bops bl a = l ++ [v] /\ (if is_jump (op_of g v) then length (bdesc bl a) = 2 else length (bdesc bl a) <= 1).
Lemma redirect_total g o j : forall P bl rest, o < length bl -> j < length bl -> o <> j -> (forall a, In a P -> a < length bl) -> NoDup P -> banc bl o = P ++ rest ->
  (forall a, In a P -> In o (bdesc bl a) /\ fits g bl a /\ ~ In a (banc bl j)) -> exists bl', mfold (redirect g o j) P bl = Ok bl'.
Proof.
  induction P as [|a P IH]; intros bl rest Lo Lj Noj LP ND Eo H; cbn [mfold]; [eauto|].
  inversion ND as [|? ? Na ND']; subst. destruct (H a (or_introl eq_refl)) as (Ho & (l & v & El & Fv) & Nj).
  assert (E1 : exists bl1, redirect g o j bl a = Ok bl1).
  { unfold redirect. destruct (bops bl a) as [|y ys] eqn:Eops; [destruct l; discriminate|]. destruct (bdesc bl a) as [|z zs] eqn:Ed; [contradiction|].
    unfold replace_descendant. destruct (Nat.eqb_spec o j) as [|_]; [contradiction|]. cbv zeta. rewrite Eops, Ed, El, rev_app_distr. cbn [rev app].
    assert (F : (if is_jump (op_of g v) then length (z :: zs) =? 2 else length (z :: zs) <=? 1) = true).
    { destruct (is_jump (op_of g v)); [now apply Nat.eqb_eq|now apply Nat.leb_le]. }
    rewrite F. cbn [negb]. unfold remove_ancestor. rewrite Eo. cbn [app]. rewrite (in_set_true a (a :: P ++ rest)) by now left. cbn [bind].
    unfold add_ancestor. replace (banc (update bl o (with_anc (remove_one a))) j) with (banc bl j) by (rewrite update_nth by auto; destruct (Nat.eqb_spec j o); [congruence|reflexivity]).
    rewrite (in_set_false a _ Nj). cbn [bind]. rewrite (in_set_true o _ Ho). eauto. }
  destruct E1 as (bl1 & E1). rewrite E1. cbn [bind].
  unfold redirect in E1. destruct (bops bl a) eqn:Eops; [discriminate|]. destruct (bdesc bl a) eqn:Eda; [discriminate|]. rewrite <- Eda in Ho.
  destruct (replace_descendant_spec g bl a o j bl1) as (_ & _ & L1 & O1 & D1 & A1); auto; [apply LP; now left|].
  apply (IH bl1 rest); rewrite ?L1; auto.
  - intros x Hx. apply LP. now right.
  - rewrite A1. destruct (Nat.eqb_spec o j); [contradiction|]. rewrite Nat.eqb_refl, Eo. cbn. now rewrite Nat.eqb_refl.
  - intros x Hx. assert (x <> a) by (intros ->; contradiction). destruct (H x (or_intror Hx)) as (X1 & (l' & v' & X2 & X3) & X4). unfold fits. rewrite O1, D1, A1, Nat.eqb_refl.
    destruct (Nat.eqb_spec x a); [contradiction|]. split; auto. split; [eauto|]. rewrite in_app_iff. cbn. intuition.
Qed.

Section BranchTotal.
Variables (st : cstate) (n o : nat) (cond : name) (phis : list name).
Notation bl := (s_blocks st).
Notation l := n.
Notation r := (S n).
Notation j := (S (S n)).
Hypothesis Len : length bl = S (S n).
Hypothesis Lo : o < n.
Hypothesis El : banc bl l = [] /\ bdesc bl l = [].
Hypothesis Er : banc bl r = [] /\ bdesc bl r = [].
Hypothesis NDa : NoDup (banc bl o).
Hypothesis Edge : forall a x, In x (bdesc bl a) <-> In a (banc bl x).
Hypothesis Range : forall a x, In x (bdesc bl a) -> a < n /\ x < n.
Hypothesis Hc : cond < g_next (s_g st).
Hypothesis Fits : forall a, In a (banc bl o) -> a <> o /\ fits (s_g st) bl a /\ forall v, In v (bops bl a) -> v < g_next (s_g st).

Lemma insert_branch_total : exists st' jb, insert_branch st l r o cond phis = Ok (st', jb).
Proof.
  unfold insert_branch. set (st1 := insert_front st o phis) in *.
  assert (N1 : forall t, nth_block (s_blocks st1) t = if t =? o then with_ops (fun ops => phis ++ ops) (nth_block bl t) else nth_block bl t).
  { intros t. unfold st1, insert_front. cbn [s_blocks]. apply update_nth. lia. }
  assert (L1 : length (s_blocks st1) = S (S n)) by (unfold st1, insert_front; cbn [s_blocks]; now rewrite update_length).
  assert (B1 : forall t, bops (s_blocks st1) t = if t =? o then phis ++ bops bl t else bops bl t) by (intros t; rewrite N1; destruct (t =? o); reflexivity).
  assert (A1 : forall t, banc (s_blocks st1) t = banc bl t) by (intros t; rewrite N1; destruct (t =? o); reflexivity).
  assert (D1 : forall t, bdesc (s_blocks st1) t = bdesc bl t) by (intros t; rewrite N1; destruct (t =? o); reflexivity).
  clear N1.
  assert (Big : forall t, n <= t -> ~ In t (banc bl o)) by (intros t Lt K; apply Edge, Range in K; lia).
  destruct (add_descendant_total (s_blocks st1) l o) as (bl2 & E2); [lia|lia|rewrite D1, (proj2 El); intros []|rewrite A1; apply Big; lia|]. rewrite E2. cbn [bind].
  destruct (add_descendant_spec (s_blocks st1) l o bl2 ltac:(lia) ltac:(lia) E2) as (L2 & B2 & D2 & A2).
  destruct (add_descendant_total bl2 r o) as (bl3 & E3); [lia|lia| | |].
  { rewrite D2, D1, (proj2 Er). destruct (Nat.eqb_spec r l); [lia|intros []]. }
  { rewrite A2, A1, Nat.eqb_refl, in_app_iff. intros [K|[K|[]]]; [exact (Big r ltac:(lia) K)|lia]. }
  rewrite E3. cbn [bind].
  destruct (add_descendant_spec bl2 r o bl3 ltac:(lia) ltac:(lia) E3) as (L3 & B3 & D3 & A3).
  cbn [create_block s_g s_blocks s_visited].
  destruct (create_total (mks (s_g st1) (bl3 ++ [mkb [] [] []]) (s_visited st1)) (length bl3) OJump TVoid [cond] eq_refl) as (st4 & jv & E4). rewrite E4. cbn [bind].
  assert (Ej : length bl3 = j) by lia. rewrite Ej in *.
  assert (Hlen : j < length (bl3 ++ [mkb [] [] []])) by (rewrite app_length; cbn; lia).
  assert (Hin : ~ In (g_next (s_g st)) [cond]) by (intros [K|[]]; lia).
  pose proof (create_operation_spec (mks (s_g st1) (bl3 ++ [mkb [] [] []]) (s_visited st1)) j OJump TVoid [cond] st4 jv Hlen Hin E4) as C4.
  cbn [s_g s_blocks s_visited] in C4. destruct C4 as (-> & G4 & V4 & L4 & O4 & Ar4 & P4 & Co4 & B4 & A4 & D4).
  rewrite app_length in L4. cbn [length] in L4.
  assert (NB : forall t, nth_block (bl3 ++ [mkb [] [] []]) t = nth_block bl3 t).
  { intros t. rewrite nth_block_app. destruct (Nat.eqb_spec t (length bl3)) as [->|]; auto. rewrite nth_block_out; auto. }
  cbn [fst snd visit s_blocks s_g s_visited].
  assert (Out : forall t, n <= t -> bdesc bl t = [] /\ banc bl t = []).
  { intros t L. destruct (bdesc bl t) as [|x q] eqn:Eq.
    - split; auto. destruct (banc bl t) as [|x q] eqn:Eq'; auto. assert (In x (banc bl t)) as K by (rewrite Eq'; now left). apply Edge, Range in K. lia.
    - assert (In x (bdesc bl t)) as K by (rewrite Eq; now left). apply Range in K. lia. }
  assert (D4' : forall t, bdesc (s_blocks st4) t = if t =? r then bdesc bl t ++ [o] else if t =? l then bdesc bl t ++ [o] else bdesc bl t).
  { intros t. rewrite D4, NB, D3, D2, D1. destruct (Nat.eqb_spec t r), (Nat.eqb_spec t l); try reflexivity. lia. }
  assert (A4' : forall t, banc (s_blocks st4) t = if t =? o then banc bl t ++ [l; r] else banc bl t).
  { intros t. rewrite A4, NB, A3, A2, A1. destruct (t =? o); [now rewrite <- app_assoc|reflexivity]. }
  destruct (add_descendant_total (s_blocks st4) j l) as (bl5 & E5); [lia|lia| | |].
  { rewrite D4'. destruct (Nat.eqb_spec j r); [lia|]. destruct (Nat.eqb_spec j l); [lia|]. rewrite (proj1 (Out j ltac:(lia))). intros []. }
  { rewrite A4'. destruct (Nat.eqb_spec l o); [lia|]. rewrite (proj1 El). intros []. }
  rewrite E5. cbn [bind]. destruct (add_descendant_spec (s_blocks st4) j l bl5 ltac:(lia) ltac:(lia) E5) as (L5 & B5 & D5 & A5).
  destruct (add_descendant_total bl5 j r) as (bl6 & E6); [lia|lia| | |].
  { rewrite D5, D4', Nat.eqb_refl. destruct (Nat.eqb_spec j r); [lia|]. destruct (Nat.eqb_spec j l); [lia|]. rewrite (proj1 (Out j ltac:(lia))). cbn. lia. }
  { rewrite A5, A4'. destruct (Nat.eqb_spec r l); [lia|]. destruct (Nat.eqb_spec r o); [lia|]. rewrite (proj1 Er). intros []. }
  rewrite E6. cbn [bind]. destruct (add_descendant_spec bl5 j r bl6 ltac:(lia) ltac:(lia) E6) as (L6 & B6 & D6 & A6).
  rewrite A1. destruct (redirect_total (s_g st4) o j (banc bl o) bl6 [l; r]) as (bl7 & E7).
  - lia.
  - lia.
  - lia.
  - intros a Ha. apply Edge, Range in Ha. lia.
  - exact NDa.
  - rewrite A6, A5, A4', Nat.eqb_refl. destruct (Nat.eqb_spec o r); [lia|]. destruct (Nat.eqb_spec o l); [lia|]. reflexivity.
  - intros a Ha. destruct (Fits a Ha) as (Nao & (q & v & F1 & F2) & F3). pose proof Ha as Hd. apply Edge in Hd. pose proof (Range _ _ Hd) as [La _].
    assert (Da : bdesc bl6 a = bdesc bl a).
    { rewrite D6, D5, D4'. destruct (Nat.eqb_spec a j); [lia|]. destruct (Nat.eqb_spec a r); [lia|]. destruct (Nat.eqb_spec a l); [lia|]. reflexivity. }
    split; [now rewrite Da|]. split.
    + exists q, v. split.
      * rewrite B6, B5, B4. destruct (Nat.eqb_spec a j); [lia|]. rewrite NB, B3, B2, B1. destruct (Nat.eqb_spec a o); [contradiction|auto].
      * rewrite Da, O4. destruct (Nat.eqb_spec v (g_next (s_g st1))) as [Ev|]; [|exact F2]. exfalso. specialize (F3 v). rewrite F1, in_app_iff in F3. specialize (F3 (or_intror (or_introl eq_refl))).
        change (g_next (s_g st1)) with (g_next (s_g st)) in Ev. lia.
    + rewrite A6, A5, A4'. destruct (Nat.eqb_spec j r); [lia|]. destruct (Nat.eqb_spec j l); [lia|]. destruct (Nat.eqb_spec j o); [lia|]. rewrite (proj2 (Out j ltac:(lia))). intros [].
  - rewrite E7. cbn [bind]. eauto.
Qed.
End BranchTotal.

Ltac parts := repeat match goal with |- _ /\ _ => split end; auto; try (cbn in *; lia).

Section Total.
Variables (A : algebra) (Q : selecting A) (T : typing) (g0 : graph) (ops0 : list name) (r0 : name -> D A).
Hypothesis P0 : program T g0 0 ops0.
Hypothesis C0 : consistent r0 g0 ops0.
Notation N0 := (g_next g0).
Variable ok : name -> Prop.
Hypothesis Ok1 : forall v, ok v -> In v ops0.
Hypothesis Ok2 : forall v a, ok v -> In a (args g0 v) -> ok a.
Notation oks l := (forall x, In x l -> ok x).
Notation inv := (inv A Q g0 r0 ok).
Notation frame := (frame A).
Variable ct : bool.

Definition weight (v : name) : nat := length (args g0 v) + 4.
Definition phi (st : cstate) : nat := list_sum (map (fun v => if is_visited st v then 0 else weight v) (seq 0 N0)).
(** All consumers of the values in a queue were moved. *)
Definition seen (st : cstate) (l : list name) : Prop := forall x, In x l -> x < N0 /\ all_consumers_visited st x = true.
(** The values that can be moved next. *)
Definition ready (st : cstate) (v : name) : Prop :=
  v < N0 /\ is_visited st v = false /\ cons_of (s_g st) v <> [] /\ all_consumers_visited st v = true.
Definition covers (st : cstate) (l : list name) : Prop := forall v, ready st v -> In v l.
Definition grows (st st' : cstate) : Prop :=
  (forall x, is_visited st x = true -> is_visited st' x = true) /\
  (forall x, x < N0 -> all_consumers_visited st x = true -> all_consumers_visited st' x = true).
(** No select was moved; what was added and reads a value was moved; and what was read still is. *)
Definition no_selects (st : cstate) : Prop :=
  (ct = true -> forall v, parent (s_g st) v <> 0 -> op_of (s_g st) v <> OCond) /\
  (forall a c, In a (args (s_g st) c) -> a < N0 -> N0 <= c -> is_visited st c = true) /\
  (forall a c, In a (args g0 c) -> exists c', In a (args (s_g st) c')).

Lemma grows_refl st : grows st st.
Proof. split; auto. Qed.
Lemma grows_trans a b c : grows a b -> grows b c -> grows a c.
Proof. intros [X1 X2] [Y1 Y2]. split; auto. Qed.
Lemma seen_grows st st' l : grows st st' -> seen st l -> seen st' l.
Proof. intros G S x Hx. destruct (S x Hx) as [L V]. split; auto. now apply G. Qed.
Lemma seen_app st l l' : seen st (l ++ l') <-> seen st l /\ seen st l'.
Proof. unfold seen. split; [intros H; split; intros x Hx; apply H; apply in_app_iff; auto|]. intros [H1 H2] x Hx. apply in_app_iff in Hx. destruct Hx; auto. Qed.
Lemma phi_drop st st' vs : (forall x, is_visited st x = true -> is_visited st' x = true) -> NoDup vs ->
  (forall v, In v vs -> v < N0 /\ is_visited st v = false /\ is_visited st' v = true) -> phi st' + list_sum (map weight vs) <= phi st.
Proof.
  intros G ND H. unfold phi.
  replace (list_sum (map weight vs)) with (list_sum (map (fun v => if is_visited st v then 0 else weight v) vs)).
  - apply sum_drop; auto.
    + intros v Hv. apply in_seq. destruct (H v Hv). lia.
    + intros x _. destruct (is_visited st x) eqn:E; [rewrite (G x E); lia|]. destruct (is_visited st' x); lia.
    + intros v Hv. destruct (H v Hv) as (_ & _ & ->). reflexivity.
  - f_equal. apply map_ext_in. intros v Hv. destruct (H v Hv) as (_ & -> & _). reflexivity.
Qed.

Lemma below_total st r e opts b v : inv r e opts st -> all_consumers_visited st v = true ->
  exists k, all_of (consumer_below st b) (cons_of (s_g st) v) = Ok k /\ (b = e -> k = true).
Proof.
  intros I V. pose proof (c_shape _ _ _ _ _ _ _ _ _ (i_core _ _ _ _ _ _ _ _ _ I)) as Sh.
  assert (K : forall c, In c (cons_of (s_g st) v) -> exists t, parent (s_g st) c = S t /\ t < length (s_blocks st)).
  { intros c Hc. unfold all_consumers_visited in V. rewrite forallb_forall in V. specialize (V c Hc). apply mem_in in V. apply (i_vis _ _ _ _ _ _ _ _ _ I) in V.
    destruct (parent (s_g st) c) as [|t] eqn:E; [congruence|]. exists t. split; auto. apply (i_par _ _ _ _ _ _ _ _ _ I) in E. now apply in_block_lt in E. }
  destruct (all_of_total (consumer_below st b) (cons_of (s_g st) v)) as (k & Ek).
  - intros c Hc. destruct (K c Hc) as (t & E & L). unfold consumer_below. rewrite E. apply (dominated_total _ _ _ e Sh t b L).
  - exists k. split; auto. intros ->. destruct k; auto. exfalso. apply all_of_false in Ek. destruct Ek as (c & Hc & F). destruct (K c Hc) as (t & E & L).
    unfold consumer_below in F. rewrite E in F. exact (dominated_entry _ _ _ e Sh _ t L F).
Qed.

Lemma place_grows st st' v : (forall x, cons_of (s_g st') x = cons_of (s_g st) x) -> (forall x, In x (s_visited st') <-> x = v \/ In x (s_visited st)) -> grows st st'.
Proof.
  intros Gc Vi. assert (G : forall x, is_visited st x = true -> is_visited st' x = true) by (intros x K; apply mem_in; apply Vi; right; now apply mem_in).
  split; auto. intros x _. unfold all_consumers_visited. rewrite Gc, !forallb_forall. auto.
Qed.

Lemma loop_total b : forall fuel st queue conds deferred r e opts P,
  inv r e opts st -> b < length (s_blocks st) -> oks queue -> seen st queue -> seen st conds -> seen st deferred ->
  covers st (queue ++ conds ++ deferred ++ P) -> no_selects st -> length queue + phi st < fuel ->
  exists st' conds' deferred', process_non_conditionals fuel ct st queue conds deferred b = Ok (st', conds', deferred') /\
    grows st st' /\ seen st' conds' /\ seen st' deferred' /\ covers st' (conds' ++ deferred' ++ P) /\ no_selects st' /\
    length conds' + length deferred' + phi st' <= length queue + length conds + length deferred + phi st /\
    (b = e -> deferred' = deferred) /\ (forall t, banc (s_blocks st') t = banc (s_blocks st) t).
Proof.
  induction fuel as [|f IH]; intros st queue conds deferred r e opts P I Lb Hq Sq Sc Sd Co Ns Lf; [lia|]. cbn [process_non_conditionals].
  destruct queue as [|top q].
  - exists st, conds, deferred. parts. apply grows_refl.
  - assert (Ht : ok top) by (apply Hq; now left). assert (Hq' : oks q) by (intros x Hx; apply Hq; now right).
    pose proof (ok_lt T g0 ops0 P0 ok Ok1 top Ht) as Lt. destruct (Sq top (or_introl eq_refl)) as [_ Vt].
    assert (Sq' : seen st q) by (intros x Hx; apply Sq; now right). cbn [length] in Lf.
    destruct (is_visited st top) eqn:Ev.
    + destruct (IH st q conds deferred r e opts P I Lb Hq' Sq' Sc Sd) as (st' & cs & ds & X1 & X2 & X3 & X4 & X5 & X6 & X7 & X8 & X9); auto; [|lia|].
      { intros v R. destruct (Co v R) as [<-|K]; auto. destruct R as (_ & K & _). congruence. }
      exists st', cs, ds. parts.
    + rewrite Vt. cbn [negb]. destruct (below_total st r e opts b top I Vt) as (k & Ek & Kk). rewrite Ek. cbn [bind].
      destruct k; cbn [negb].
      * destruct (is_cond (op_of (s_g st) top) && ct) eqn:Ec.
        -- destruct (IH st q (conds ++ [top]) deferred r e opts P I Lb Hq' Sq') as (st' & cs & ds & X1 & X2 & X3 & X4 & X5 & X6 & X7 & X8 & X9); auto.
           { apply seen_app. split; auto. intros x [<-|[]]. auto. }
           { intros v R. specialize (Co v R). cbn in Co. rewrite !in_app_iff in *. cbn. tauto. } { lia. }
           exists st', cs, ds. rewrite app_length in X7. parts.
        -- pose proof (unvisited_unplaced _ _ _ _ _ _ _ _ _ top I Lt Ev) as Pt. destruct (unplaced_same _ _ _ _ _ _ _ _ _ top I Lt Pt) as [Ot At].
           assert (Nj : is_jump (op_of (s_g st) top) = false).
           { rewrite Ot. pose proof (proj1 (proj2 (bo_plain g0 0 ops0 (proj1 P0) top (Ok1 top Ht)))) as Nj. destruct (op_of g0 top); auto. congruence. }
           assert (Ep : exists st1, place st top b = Ok st1) by (unfold place, set_parent; rewrite Nj; cbn [bind]; eauto). destruct Ep as (st1 & Ep). rewrite Ep. cbn [bind].
           destruct (place_inv A Q T g0 ops0 r0 P0 C0 ok Ok1 Ok2 _ _ _ _ _ _ _ I Ht Lb Ev Vt Ek Ep) as (I1 & F1 & P1 & Go & Ga & Gc & Vi & Gp & Bl & Ba & Bd & Bb).
           pose proof (place_grows st st1 top Gc Vi) as G1.
           assert (Ph : phi st1 + weight top <= phi st).
           { pose proof (phi_drop st st1 [top] (proj1 G1)) as K. cbn [map list_sum fold_right] in K. rewrite Nat.add_0_r in K. apply K; [repeat constructor; auto|].
             intros v [<-|[]]. split; auto. split; auto. apply mem_in. apply Vi. auto. }
           assert (Lr : length (ready_operands st1 top) <= length (args g0 top)).
           { unfold ready_operands. rewrite <- At, <- Ga. apply filter_le. }
           unfold weight in Ph.
           destruct (IH st1 (q ++ ready_operands st1 top) conds deferred r e opts P I1) as (st' & cs & ds & X1 & X2 & X3 & X4 & X5 & X6 & X7 & X8 & X9).
           ++ lia.
           ++ intros x Hx. rewrite in_app_iff in Hx. destruct Hx as [Hx|Hx]; auto. apply ready_operands_in in Hx. rewrite Ga, At in Hx. exact (Ok2 top x Ht Hx).
           ++ apply seen_app. split; [now apply (seen_grows st)|]. intros x Hx. split.
              ** apply ready_operands_in in Hx. rewrite Ga, At in Hx. apply (ok_lt T g0 ops0 P0 ok Ok1). exact (Ok2 top x Ht Hx).
              ** unfold ready_operands in Hx. apply filter_In in Hx. destruct Hx as [_ Hx]. apply andb_true_iff in Hx. tauto.
           ++ now apply (seen_grows st).
           ++ now apply (seen_grows st).
           ++ intros v (R1 & R2 & R3 & R4). rewrite Gc in R3. assert (Nv : v <> top) by (intros ->; unfold is_visited in R2; assert (mem top (s_visited st1) = true) by (apply mem_in; apply Vi; auto); congruence).
              assert (Uv : is_visited st v = false) by (destruct (is_visited st v) eqn:E; auto; apply (proj1 G1) in E; congruence).
              destruct (all_consumers_visited st v) eqn:Av.
              ** assert (K : In v (top :: q ++ conds ++ deferred ++ P)) by (apply (Co v); repeat split; auto). destruct K as [K|K]; [congruence|]. rewrite !in_app_iff in *. tauto.
              ** assert (K : In v (ready_operands st1 top)); [|rewrite !in_app_iff; tauto]. apply filter_In. split; [|rewrite R2, R4; reflexivity].
                 unfold all_consumers_visited in Av, R4. rewrite forallb_forall in R4.
                 assert (Z : exists c, In c (cons_of (s_g st) v) /\ is_visited st c = false).
                 { clear -Av. induction (cons_of (s_g st) v) as [|c l IHl]; cbn in Av; [discriminate|]. destruct (is_visited st c) eqn:E; [|exists c; split; [now left|auto]].
                   destruct (IHl Av) as (d & D1 & D2). exists d. split; [now right|auto]. }
                 destruct Z as (c & Z1 & Z2). pose proof (R4 c) as Z3. rewrite Gc in Z3. specialize (Z3 Z1). apply mem_in, Vi in Z3.
                 destruct Z3 as [->|Z3]; [|apply mem_in in Z3; unfold is_visited in Z2; congruence]. rewrite Ga. now apply (def_use_in _ (cg_use _ (i_closed _ _ _ _ _ _ _ _ _ I))).
           ++ destruct Ns as (Ns & Nv2 & Nu). split; [|split].
              ** intros Ect v Pv. rewrite Go. destruct (Nat.eq_dec v top) as [->|Nv]; [|rewrite Gp in Pv by auto; now apply Ns].
                 intros K. rewrite K, Ect in Ec. discriminate.
              ** intros a c Ha La Lc. rewrite Ga in Ha. apply (proj1 G1). exact (Nv2 a c Ha La Lc).
              ** intros a c Ha. destruct (Nu a c Ha) as (c' & K). exists c'. now rewrite Ga.
           ++ rewrite app_length. lia.
           ++ exists st', cs, ds. rewrite app_length in X7. pose proof (grows_trans st st1 st' G1 X2). assert (forall t, banc (s_blocks st') t = banc (s_blocks st) t) by (intros t; now rewrite X9). parts.
      * destruct (IH st q conds (deferred ++ [top]) r e opts P I Lb Hq' Sq' Sc) as (st' & cs & ds & X1 & X2 & X3 & X4 & X5 & X6 & X7 & X8 & X9); auto.
        { apply seen_app. split; auto. intros x [<-|[]]. auto. }
        { intros v R. specialize (Co v R). cbn in Co. rewrite !in_app_iff in *. cbn. tauto. } { lia. }
        exists st', cs, ds. rewrite app_length in X7. parts.
Qed.

(** * A group of selects *)
Lemma regrouped_grows l r o vs st ts st' : regrouped l r o vs st ts st' -> closed_graph (s_g st) -> N0 <= g_next (s_g st) -> grows st st'.
Proof.
  intros R CG LN. assert (G : forall x, is_visited st x = true -> is_visited st' x = true) by (intros x K; apply mem_in; apply (rg_vis _ _ _ _ _ _ _ R); left; now apply mem_in).
  split; auto. intros x Lx V. unfold all_consumers_visited in *. rewrite forallb_forall in *. intros c Hc.
  apply (def_use_in _ (cg_use _ (rg_closed _ _ _ _ _ _ _ R))) in Hc.
  destruct (Nat.lt_ge_cases c (g_next (s_g st))) as [Lc|Lc].
  - destruct (in_dec Nat.eq_dec c vs) as [K|K]; [apply mem_in; apply (rg_vis _ _ _ _ _ _ _ R); auto|].
    destruct (rg_same _ _ _ _ _ _ _ R c Lc K) as (_ & E & _). rewrite E in Hc. apply G. apply V. now apply (def_use_in _ (cg_use _ CG)).
  - destruct (Nat.lt_ge_cases c (g_next (s_g st'))) as [Lc'|Lc']; [apply mem_in; apply (rg_vis _ _ _ _ _ _ _ R); auto|].
    rewrite (proj1 (cg_fresh _ (rg_closed _ _ _ _ _ _ _ R) c Lc')) in Hc. contradiction.
Qed.
Lemma group_one_total l r o st ql qr v c a b : l <> r ->
  closed_graph (s_g st) -> l < length (s_blocks st) -> r < length (s_blocks st) -> N0 <= g_next (s_g st) -> v < N0 -> ~ In v (args (s_g st) v) -> args (s_g st) v = [c; a; b] ->
  exists st' ql' qr' t, group_step l r o (st, ql, qr) v = Ok (st', ql', qr') /\ regrouped l r o [v] st [t] st' /\
    ql' = ql ++ ready_operands st' (tl_ t) /\ qr' = qr ++ ready_operands st' (tr_ t) /\
    args (s_g st') (tl_ t) = [a] /\ args (s_g st') (tr_ t) = [b] /\
    forall x, ready st' x -> x <> c -> In x ql' \/ In x qr' \/ ready st x.
Proof.
  intros Nlr CG Ll Lr LN Lv Nv Ea.
  assert (La : a < g_next (s_g st)) by (apply (cg_args _ CG v); rewrite Ea; right; now left).
  assert (Lb : b < g_next (s_g st)) by (apply (cg_args _ CG v); rewrite Ea; right; right; now left).
  assert (E : exists st' ql' qr', group_step l r o (st, ql, qr) v = Ok (st', ql', qr')).
  { unfold group_step. rewrite Ea. cbn [nth_error].
    destruct (create_total st l OCopy (ty_of (s_g st) a) [a] eq_refl) as (st1 & cl & E1). rewrite E1. cbn [bind fst snd].
    pose proof (create_closed _ _ _ _ [a] _ _ CG Ll ltac:(intros x [<-|[]]; exact La) E1) as CG1.
    destruct (create_operation_spec _ _ _ _ [a] _ _ Ll ltac:(intros [K|[]]; lia) E1) as (-> & G1 & V1 & L1 & O1 & A1 & P1 & _ & B1 & An1 & D1).
    destruct (create_total st1 r OCopy (ty_of (s_g st1) b) [b] eq_refl) as (st2 & cr & E2). rewrite E2. cbn [bind fst snd].
    assert (Lr1 : r < length (s_blocks st1)) by lia.
    pose proof (create_closed _ _ _ _ [b] _ _ CG1 Lr1 ltac:(intros x [<-|[]]; lia) E2) as CG2.
    destruct (create_operation_spec _ _ _ _ [b] _ _ Lr1 ltac:(intros [K|[]]; lia) E2) as (-> & G2 & V2 & L2 & O2 & A2 & P2 & _ & B2 & An2 & D2).
    destruct (set_operation_spec (s_g st2) v OPhi (ty_of (s_g st2) (g_next (s_g st))) [g_next (s_g st); g_next (s_g st1)] (cg_use _ CG2)) as (g3 & E3 & G3 & O3 & _ & P3 & A3 & U3);
      [reflexivity|intros [K|[K|[]]]; lia|]. rewrite E3. cbn [bind].
    unfold set_parent. rewrite O3, Nat.eqb_refl. cbn [is_jump bind]. eauto. }
  destruct E as (st' & ql' & qr' & E).
  destruct (group_one l r o Nlr st ql qr v st' ql' qr' E CG Ll Lr ltac:(lia) Nv) as (t & R & Eql & Eqr & _ & _); [eauto|].
  destruct (rg_left _ _ _ _ _ _ _ R t (or_introl eq_refl)) as (Rl & _ & _ & c1 & a1 & b1 & Z1 & Al).
  destruct (rg_right _ _ _ _ _ _ _ R t (or_introl eq_refl)) as (Rr & _ & _ & c2 & a2 & b2 & Z2 & Ar).
  destruct (rg_phi _ _ _ _ _ _ _ R t (or_introl eq_refl)) as (_ & Ap & _).
  assert (Et : tv t = v). { pose proof (rg_vs _ _ _ _ _ _ _ R) as K. cbn in K. congruence. } rewrite Et in *. rewrite Ea in Z1, Z2. injection Z1 as <- <- <-. injection Z2 as <- <- <-.
  exists st', ql', qr', t. parts. intros x (X1 & X2 & X3 & X4) Nx. destruct (Nat.eq_dec x a) as [->|Na].
  { left. rewrite Eql. apply in_app_iff. right. apply filter_In. rewrite Al, X2, X4. cbn. auto. }
  destruct (Nat.eq_dec x b) as [->|Nb].
  { right. left. rewrite Eqr. apply in_app_iff. right. apply filter_In. rewrite Ar, X2, X4. cbn. auto. }
  right. right. pose proof (regrouped_grows _ _ _ _ _ _ _ R CG LN) as G.
  assert (Same : forall w, In x (args (s_g st') w) <-> In x (args (s_g st) w)).
  { intros w. destruct (Nat.eq_dec w v) as [->|Nw].
    - rewrite Ap, Ea. cbn. split; intros K; exfalso; intuition lia.
    - destruct (Nat.lt_ge_cases w (g_next (s_g st))) as [Lw|Lw].
      + destruct (rg_same _ _ _ _ _ _ _ R w Lw) as (_ & -> & _); [cbn; intuition congruence|tauto].
      + rewrite (proj1 (cg_fresh _ CG w Lw)). split; [|intros []]. intros K. exfalso.
        destruct (Nat.lt_ge_cases w (g_next (s_g st'))) as [Lw'|Lw'].
        * destruct (rg_new _ _ _ _ _ _ _ R w) as [[K'|[]]|[K'|[]]]; [lia| |]; rewrite <- K' in K; [rewrite Al in K|rewrite Ar in K]; cbn in K; intuition congruence.
        * rewrite (proj1 (cg_fresh _ (rg_closed _ _ _ _ _ _ _ R) w Lw')) in K. contradiction. }
  split; [auto|]. split; [|split].
  - destruct (is_visited st x) eqn:Ev; auto. apply (proj1 G) in Ev. congruence.
  - intros K. destruct (cons_of (s_g st') x) as [|w q] eqn:Ec; [congruence|]. assert (In w (cons_of (s_g st') x)) as Hw by (rewrite Ec; now left).
    apply (def_use_in _ (cg_use _ (rg_closed _ _ _ _ _ _ _ R))), Same in Hw. apply (def_use_in _ (cg_use _ CG)) in Hw. rewrite K in Hw. contradiction.
  - unfold all_consumers_visited in *. rewrite forallb_forall in *. intros w Hw. apply (def_use_in _ (cg_use _ CG)) in Hw. pose proof Hw as Hw'. apply Same in Hw.
    apply (def_use_in _ (cg_use _ (rg_closed _ _ _ _ _ _ _ R))) in Hw. specialize (X4 w Hw). apply mem_in in X4. apply (rg_vis _ _ _ _ _ _ _ R) in X4. apply mem_in.
    destruct X4 as [|[[<-|[]]|K]]; auto; exfalso.
    + rewrite Ea in Hw'. cbn in Hw'. intuition congruence.
    + rewrite (proj1 (cg_fresh _ CG w (proj1 K))) in Hw'. contradiction.
Qed.

Lemma group_total l r o cond : l <> r -> forall vs st ql qr, closed_graph (s_g st) -> l < length (s_blocks st) -> r < length (s_blocks st) -> N0 <= g_next (s_g st) -> NoDup vs ->
  (forall v, In v vs -> v < N0 /\ ~ In v (args (s_g st) v) /\ exists a b, args (s_g st) v = [cond; a; b] /\ a < N0 /\ b < N0) -> seen st ql -> seen st qr ->
  exists st' ql' qr', mfold (group_step l r o) vs (st, ql, qr) = Ok (st', ql', qr') /\ grows st st' /\ seen st' ql' /\ seen st' qr' /\
    length ql' <= length ql + length vs /\ length qr' <= length qr + length vs /\
    (forall x, In x ql -> In x ql') /\ (forall x, In x qr -> In x qr') /\
    forall x, ready st' x -> x <> cond -> In x ql' \/ In x qr' \/ ready st x.
Proof.
  intros Nlr. induction vs as [|v vs IH]; intros st ql qr CG Ll Lr LN ND Hv Sl Sr; cbn [mfold].
  - exists st, ql, qr. parts. apply grows_refl.
  - inversion ND as [|? ? Nv ND']; subst. destruct (Hv v (or_introl eq_refl)) as (Lv & Sv & a & b & Av & La & Lb).
    destruct (group_one_total l r o st ql qr v cond a b Nlr CG Ll Lr LN Lv Sv Av) as (st1 & ql1 & qr1 & t & E1 & R1 & El & Er & Al & Ar & Rd).
    rewrite E1. cbn [bind]. pose proof (regrouped_grows _ _ _ _ _ _ _ R1 CG LN) as G1.
    assert (Sx : forall w x y, args (s_g st1) w = [x] -> x < N0 -> In y (ready_operands st1 w) -> y < N0 /\ all_consumers_visited st1 y = true).
    { intros w x y Ew Lx Hy. apply filter_In in Hy. rewrite Ew in Hy. destruct Hy as [[<-|[]] Hy]. apply andb_true_iff in Hy. tauto. }
    assert (Lx : forall w x, args (s_g st1) w = [x] -> length (ready_operands st1 w) <= 1) by (intros w x Ew; unfold ready_operands; rewrite Ew; apply (filter_le _ [x])).
    destruct (IH st1 ql1 qr1) as (st' & ql' & qr' & E' & G' & Sl' & Sr' & Ll' & Lr' & Il & Ir & Rd'); auto.
    + apply (rg_closed _ _ _ _ _ _ _ R1).
    + now rewrite (rg_len _ _ _ _ _ _ _ R1).
    + now rewrite (rg_len _ _ _ _ _ _ _ R1).
    + pose proof (rg_next _ _ _ _ _ _ _ R1). lia.
    + intros w Hw. destruct (Hv w (or_intror Hw)) as (Lw & Sw & a' & b' & Aw & K). destruct (rg_same _ _ _ _ _ _ _ R1 w) as (_ & Ew & _); [lia|cbn; intros [<-|[]]; contradiction|].
      rewrite Ew. parts. eauto.
    + rewrite El. apply seen_app. split; [now apply (seen_grows st)|]. intros x Hx. now apply (Sx (tl_ t) a).
    + rewrite Er. apply seen_app. split; [now apply (seen_grows st)|]. intros x Hx. now apply (Sx (tr_ t) b).
    + exists st', ql', qr'. pose proof (Lx _ _ Al). pose proof (Lx _ _ Ar). pose proof (grows_trans st st1 st' G1 G'). rewrite El, app_length in Ll'. rewrite Er, app_length in Lr'.
      parts.
      * intros x Hx. apply Il. rewrite El. apply in_app_iff. auto.
      * intros x Hx. apply Ir. rewrite Er. apply in_app_iff. auto.
      * intros x Rx Nx. destruct (Rd' x Rx Nx) as [|[|K]]; auto. destruct (Rd x K Nx) as [|[|]]; auto.
Qed.

(** * A whole call *)
Lemma unique_length : forall l, length (unique l) <= length l.
Proof.
  induction l as [|a [|b t] IH]; [auto|auto|]. change (unique (a :: b :: t)) with (if a =? b then unique (b :: t) else a :: unique (b :: t)).
  destruct (a =? b); cbn [length] in *; lia.
Qed.
Lemma partition_length {B} (f : B -> bool) l : length (filter f l) + length (filter (fun x => negb (f x)) l) = length l.
Proof. induction l as [|x l IH]; cbn; auto. destruct (f x); cbn; lia. Qed.
Lemma select_total g conds : conds <> [] -> (forall v, In v conds -> args g v <> []) ->
  exists c grouped rest, select_conditionals g conds = Ok (c, grouped, rest) /\ length grouped + length rest <= length conds /\
    forall v, In v conds -> In v grouped \/ In v rest.
Proof.
  intros Ne H. unfold select_conditionals. set (l := unique (rev (sort_names conds))).
  assert (Il : forall x, In x l <-> In x conds).
  { intros x. unfold l. rewrite unique_in, <- in_rev. split; apply Permutation_in; [apply sort_perm|symmetry; apply sort_perm]. }
  assert (E : forall q, (forall x, In x q -> In x conds) -> exists fs, all_first g q = Ok fs /\ length fs = length q).
  { induction q as [|v q IH]; intros Hq; cbn [all_first]; [eauto|]. destruct (IH (fun x K => Hq x (or_intror K))) as (fs & Ef & Lf).
    unfold first_operand. destruct (args g v) as [|a t] eqn:Ea; [destruct (H v); auto; apply Hq; now left|]. cbn [bind]. rewrite Ef. cbn [bind]. eexists. split; eauto. cbn. lia. }
  destruct (E l) as (fs & Ef & Lf); [intros x; apply Il|]. rewrite Ef. cbn [bind].
  destruct fs as [|x fs]. { exfalso. destruct conds as [|v q]; [contradiction|]. pose proof (proj2 (Il v) (or_introl eq_refl)) as K. destruct l; [contradiction|discriminate]. }
  cbn [most_common bind]. eexists. eexists. eexists. split; [reflexivity|]. split.
  - rewrite partition_length. unfold l. rewrite unique_length, rev_length. rewrite (Permutation_length (sort_perm conds)). auto.
  - intros v K. apply Il in K. rewrite !filter_In. destruct (has_condition g _ v); auto.
Qed.

Lemma fits_inv r e opts st a : inv r e opts st -> a < length (s_blocks st) -> bops (s_blocks st) a <> [] -> fits (s_g st) (s_blocks st) a.
Proof.
  intros I La Ne. pose proof (i_core _ _ _ _ _ _ _ _ _ I) as Cr. destruct (exists_last Ne) as (l & v & E). exists l, v. split; auto.
  destruct (sh_region _ _ _ _ (c_shape _ _ _ _ _ _ _ _ _ Cr)) as (bs & R & Ha). pose proof (region_two _ _ _ _ R a (proj2 (Ha a) La)) as L2. cbn beta in L2.
  assert (Kv : In v (bops (s_blocks st) a)) by (rewrite E, in_app_iff; right; now left).
  destruct (is_jump (op_of (s_g st) v)) eqn:Ej.
  - apply (c_jump _ _ _ _ _ _ _ _ _ Cr v a Kv). destruct (op_of (s_g st) v); try discriminate. auto.
  - destruct (Nat.eq_dec (length (bdesc (s_blocks st) a)) 2) as [K|K]; [|lia]. exfalso. destruct (c_two _ _ _ _ _ _ _ _ _ Cr a K) as (l' & jv & cd & X & Y & _).
    cbn beta in X. rewrite E in X. apply app_inj_tail in X. destruct X as [_ ->]. rewrite Y in Ej. discriminate.
Qed.

Definition above_nonempty (st : cstate) (o : nat) : Prop := forall a, In a (banc (s_blocks st) o) -> bops (s_blocks st) a <> [].

Lemma process_total opts : forall fuel st queue o deferred r e P,
  inv r e opts st -> o < length (s_blocks st) -> oks queue -> oks deferred -> (forall v t, op_of (s_g st) v = OPhi -> parent (s_g st) v = S t -> t <> o) ->
  seen st queue -> seen st deferred -> covers st (queue ++ deferred ++ P) -> no_selects st -> above_nonempty st o ->
  length queue + length deferred + phi st < fuel ->
  exists st' bk def', process fuel ct st queue o deferred = Ok (st', bk, def') /\ grows st st' /\ seen st' def' /\ covers st' (def' ++ P) /\ no_selects st' /\
    length def' + phi st' <= length queue + length deferred + phi st /\ (o = e -> def' = deferred) /\
    (forall t, t < length (s_blocks st) -> t <> o -> banc (s_blocks st') t = banc (s_blocks st) t).
Proof.
  induction fuel as [|f IH]; intros st queue o deferred r e P I Lo Hq Hd Hp Sq Sd Co Ns An Lf; [lia|]. cbn [process].
  destruct (loop_total o (S f) st queue [] deferred r e opts P I Lo Hq Sq ltac:(intros x []) Sd Co Ns ltac:(lia)) as (st1 & conds & def1 & E1 & G1 & Sc1 & Sd1 & Co1 & Ns1 & M1 & De1 & Ba1).
  rewrite E1. cbn [bind]. cbn [length] in M1. rewrite Nat.add_0_r in M1.
  destruct (loop_inv A Q T g0 ops0 r0 P0 C0 ok Ok1 Ok2 ct o (S f) st queue [] deferred st1 conds def1 r e opts E1 I Lo Hq Hd ltac:(intros v []) Hp) as (I1 & F1 & L1 & D1 & R1 & Hp1 & W1 & S1).
  destruct conds as [|c0 ct0]. { exists st1, o, def1. cbn in M1. parts. }
  set (conds := c0 :: ct0) in *.
  pose proof (i_core _ _ _ _ _ _ _ _ _ I1) as Cr1. pose proof (c_shape _ _ _ _ _ _ _ _ _ Cr1) as Sh1. pose proof (i_closed _ _ _ _ _ _ _ _ _ I1) as CG1. pose proof (i_next _ _ _ _ _ _ _ _ _ I1) as LN1.
  assert (Un : forall v, In v conds -> ok v /\ v < N0 /\ parent (s_g st1) v = 0 /\ is_visited st1 v = false /\ ~ In v (args (s_g st1) v) /\
     exists c a b, args (s_g st1) v = [c; a; b] /\ c < N0 /\ a < N0 /\ b < N0).
  { intros v Hv. destruct (R1 v Hv) as (_ & Kv & Uv & Ov & Cv). pose proof (ok_lt T g0 ops0 P0 ok Ok1 v Kv) as Lv. pose proof (unvisited_unplaced _ _ _ _ _ _ _ _ _ v I1 Lv Uv) as Pv.
    destruct (unplaced_same _ _ _ _ _ _ _ _ _ v I1 Lv Pv) as [Ev Av]. parts.
    - intros K. destruct (Cv v K) as (t & K' & _). congruence.
    - pose proof (bo_arity g0 0 ops0 (proj1 P0) v (Ok1 v Kv)) as Ar. rewrite <- Ev, Ov in Ar. rewrite Av. destruct (args g0 v) as [|c [|a [|b [|d q]]]] eqn:Ea; try discriminate.
      assert (Z : forall x, In x (args g0 v) -> x < N0) by (intros x Hx; apply (ok_lt T g0 ops0 P0 ok Ok1); exact (Ok2 v x Kv Hx)). rewrite Ea in Z.
      exists c, a, b. split; auto. repeat split; apply Z; cbn; auto. }
  destruct (select_total (s_g st1) conds) as (cond & grouped & rest & E2 & Lg & Pg); [discriminate| |].
  { intros v Hv. destruct (Un v Hv) as (_ & _ & _ & _ & _ & c & a & b & Ea & _). rewrite Ea. discriminate. }
  rewrite E2. cbn [bind]. destruct (select_spec _ _ _ _ _ E2) as (ND & Ng & Ig & Ir & Hc).
  cbn [create_block s_g s_blocks s_visited].
  set (st3 := mks (s_g st1) ((s_blocks st1 ++ [mkb [] [] []]) ++ [mkb [] [] []]) (s_visited st1)).
  set (n := length (s_blocks st1)) in *.
  assert (Er : length (s_blocks st1 ++ [mkb [] [] []]) = S n) by (rewrite app_length; cbn; fold n; lia). rewrite Er.
  assert (Len3 : length (s_blocks st3) = S (S n)) by (unfold st3; cbn [s_blocks]; rewrite app_length, Er; cbn; lia).
  assert (B3 : forall t, nth_block (s_blocks st3) t = nth_block (s_blocks st1) t).
  { intros t. unfold st3. cbn [s_blocks]. rewrite !nth_block_app, Er. fold n. destruct (Nat.eqb_spec t (S n)); [now rewrite nth_block_out by (fold n; lia)|].
    destruct (Nat.eqb_spec t n); [now rewrite nth_block_out by (fold n; lia)|auto]. }
  assert (Hg : forall v, In v grouped -> v < N0 /\ ~ In v (args (s_g st3) v) /\ exists a b, args (s_g st3) v = [cond; a; b] /\ a < N0 /\ b < N0).
  { intros v Hv. destruct (Un v (Ig v Hv)) as (_ & Lv & _ & _ & Nv & c & a & b & Ea & _ & La & Lb). split; [auto|]. split; [exact Nv|]. exists a, b.
    destruct (Hc v Hv) as (q & Eq). change (s_g st3) with (s_g st1). rewrite Ea in Eq. injection Eq as -> _. auto. }
  destruct (group_total n (S n) o cond ltac:(lia) grouped st3 [] [] CG1 ltac:(lia) ltac:(lia) LN1 ND Hg ltac:(intros x []) ltac:(intros x [])) as (st4 & ql & qr & E4 & G4 & Sl4 & Sr4 & Ll4 & Lr4 & _ & _ & Rd4).
  rewrite E4. cbn [bind]. cbn [length] in Ll4, Lr4.
  destruct (group_all n (S n) o ltac:(lia) grouped st3 [] [] st4 ql qr E4 CG1) as (ts & Rg & _ & _); [lia|lia|auto| |].
  { intros v Hv. destruct (Hg v Hv) as (X1 & X2 & a & b & X3 & _). split; [cbn; lia|]. split; eauto. }
  assert (Len4 : length (s_blocks st4) = S (S n)) by (rewrite (rg_len _ _ _ _ _ _ _ Rg); exact Len3).
  assert (A4 : forall t, banc (s_blocks st4) t = banc (s_blocks st1) t) by (intros t; rewrite (rg_anc _ _ _ _ _ _ _ Rg), B3; auto).
  assert (D4 : forall t, bdesc (s_blocks st4) t = bdesc (s_blocks st1) t) by (intros t; rewrite (rg_desc _ _ _ _ _ _ _ Rg), B3; auto).
  assert (Lo' : o < n) by (unfold n; lia).
  assert (Out : forall t, n <= t -> nth_block (s_blocks st1) t = mkb [] [] []) by (intros t Lt; apply nth_block_out; exact Lt).
  assert (Edge4 : forall a x, In x (bdesc (s_blocks st4) a) <-> In a (banc (s_blocks st4) x)) by (intros a x; rewrite A4, D4; apply (sh_edge _ _ _ _ Sh1)).
  assert (Range4 : forall a x, In x (bdesc (s_blocks st4) a) -> a < n /\ x < n) by (intros a x; rewrite D4; apply (sh_range _ _ _ _ Sh1)).
  assert (El4 : banc (s_blocks st4) n = [] /\ bdesc (s_blocks st4) n = []) by (rewrite A4, D4, Out by lia; auto).
  assert (Er4 : banc (s_blocks st4) (S n) = [] /\ bdesc (s_blocks st4) (S n) = []) by (rewrite A4, D4, Out by lia; auto).
  assert (NDd4 : forall t, NoDup (bdesc (s_blocks st4) t)) by (intros t; rewrite D4; apply (sh_down _ _ _ _ Sh1)).
  assert (NDa4 : NoDup (banc (s_blocks st4) o)) by (rewrite A4; apply (sh_up _ _ _ _ Sh1)).
  assert (Lcond : cond < N0).
  { destruct grouped as [|v q]; [contradiction|]. destruct (Un v (Ig v (or_introl eq_refl))) as (_ & _ & _ & _ & _ & c & a & b & Ea & Lc & _).
    destruct (Hc v (or_introl eq_refl)) as (l & El). rewrite Ea in El. injection El as -> _. auto. }
  pose proof (rg_next _ _ _ _ _ _ _ Rg) as Gn4. change (s_g st3) with (s_g st1) in Gn4.
  assert (An1 : forall a, In a (banc (s_blocks st1) o) -> a < n /\ a <> o /\ bops (s_blocks st1) a <> []).
  { intros a Ha. pose proof Ha as Hd'. apply (sh_edge _ _ _ _ Sh1) in Hd'. pose proof (sh_range _ _ _ _ Sh1 _ _ Hd') as [La _]. split; auto. split.
    - intros ->. destruct (shape_acyclic _ _ _ _ Sh1) as [rank Hr]. apply Hr in Hd'. lia.
    - rewrite Ba1 in Ha. destruct F1 as (_ & _ & _ & _ & _ & Sf). destruct (Sf a) as (l & El); [fold n in La; lia|]. rewrite El. intros K. apply app_eq_nil in K. destruct K as [_ K]. exact (An a Ha K). }
  assert (Fits4 : forall a, In a (banc (s_blocks st4) o) -> a <> o /\ fits (s_g st4) (s_blocks st4) a /\ forall v, In v (bops (s_blocks st4) a) -> v < g_next (s_g st4)).
  { intros a Ha. rewrite A4 in Ha. destruct (An1 a Ha) as (La & Nao & Ne). split; auto. destruct (fits_inv r e opts st1 a I1 La Ne) as (l & v & X1 & X2).
    assert (Bo : bops (s_blocks st4) a = bops (s_blocks st1) a). { rewrite (rg_ops _ _ _ _ _ _ _ Rg), B3. destruct (Nat.eqb_spec a n); [lia|]. destruct (Nat.eqb_spec a (S n)); [lia|auto]. }
    assert (Old : forall w, In w (bops (s_blocks st1) a) -> w < g_next (s_g st1) /\ ~ In w grouped).
    { intros w Hw. pose proof (c_own _ _ _ _ _ _ _ _ _ Cr1 w a Hw) as Pw. cbn beta in Pw. split.
      - destruct (Nat.lt_ge_cases w (g_next (s_g st1))) as [|K]; auto. rewrite (proj2 (cg_fresh _ CG1 w K)) in Pw. discriminate.
      - intros K. destruct (Un w (Ig w K)) as (_ & _ & Z & _). congruence. }
    split.
    - exists l, v. rewrite Bo, D4. split; auto. destruct (Old v) as [Z1 Z2]; [rewrite X1, in_app_iff; right; now left|].
      destruct (rg_same _ _ _ _ _ _ _ Rg v Z1 Z2) as (-> & _). exact X2.
    - intros w Hw. rewrite Bo in Hw. destruct (Old w Hw). lia. }
  destruct (insert_branch_total st4 n o cond (rev grouped) Len4 Lo' El4 Er4 NDa4 Edge4 Range4 ltac:(lia) Fits4) as (st5 & jump & E5).
  rewrite E5. cbn [bind].
  destruct (insert_branch_spec st4 n o cond (rev grouped) st5 jump Len4 Lo' El4 Er4 NDd4 NDa4 Edge4 Range4 ltac:(lia) E5) as (-> & Len5 & (_ & _ & _ & _ & Ao5 & Al5 & Ar5 & Aj5 & At5) & (Bj5 & Bt5) & Gn5 & Vi5 & Op5 & Ag5 & Pa5 & Co5).
  set (jv := g_next (s_g st4)) in *.
  destruct (branch_inv A Q T g0 ops0 r0 P0 C0 ok Ok1 Ok2 r e opts st1 o grouped cond st3 st4 ql qr st5 (S (S n))) as (r5 & I5 & F5 & Iql & Iqr & _ & L5 & Hp5); auto.
  { intros v K. apply (R1 v). auto. }
  fold n in I5, L5, Hp5. assert (Len : length (s_blocks st) = n) by (unfold n; lia).
  assert (CG4 : closed_graph (s_g st4)) by apply (rg_closed _ _ _ _ _ _ _ Rg).
  assert (Vis5 : forall x, is_visited st5 x = true <-> x = jv \/ is_visited st4 x = true).
  { intros x. unfold is_visited. rewrite Vi5. cbn [mem existsb]. change (existsb (Nat.eqb x) (s_visited st4)) with (mem x (s_visited st4)). destruct (Nat.eqb_spec x jv); cbn [orb]; intuition congruence. }
  assert (Cons5 : forall x c, x < N0 -> In c (cons_of (s_g st5) x) <-> In c (cons_of (s_g st4) x) \/ (c = jv /\ x = cond)).
  { intros x c Lx. rewrite !(count_occ_In Nat.eq_dec), Co5. assert (x <> jv) by lia. destruct (Nat.eqb_spec x jv); [contradiction|].
    destruct (Nat.eqb_spec c jv) as [->|Nc]; [|intuition lia]. cbn [count_occ]. destruct (Nat.eq_dec cond x) as [->|Nx]; [intuition lia|].
    split; [intros K; left; lia|intros [K|[_ K]]; [lia|congruence]]. }
  assert (G5 : grows st4 st5).
  { split; [intros x K; apply Vis5; auto|]. intros x Lx V. unfold all_consumers_visited in *. rewrite forallb_forall in *. intros c Hcc. apply Cons5 in Hcc; auto. apply Vis5.
    destruct Hcc as [Hcc|[-> _]]; auto. }
  assert (Rd5 : forall x, ready st5 x -> x <> cond -> ready st4 x).
  { intros x (X1 & X2 & X3 & X4) Nx. split; auto. split; [|split].
    - destruct (is_visited st4 x) eqn:Ev; auto. apply (proj1 G5) in Ev. congruence.
    - intros K. destruct (cons_of (s_g st5) x) as [|w q] eqn:Ec; [congruence|]. assert (In w (cons_of (s_g st5) x)) as Hw by (rewrite Ec; now left).
      apply Cons5 in Hw; auto. rewrite K in Hw. destruct Hw as [[]|[_ Hw]]; contradiction.
    - unfold all_consumers_visited in *. rewrite forallb_forall in *. intros w Hw. assert (Hw5 : In w (cons_of (s_g st5) x)) by (apply Cons5; auto). apply X4, Vis5 in Hw5. destruct Hw5 as [->|]; auto.
      exfalso. apply (def_use_in _ (cg_use _ CG4)) in Hw. rewrite (proj1 (cg_fresh _ CG4 jv (Nat.le_refl _))) in Hw. contradiction. }
  assert (G35 : grows st1 st5) by (apply (grows_trans st1 st4 st5); auto).
  assert (Vg5 : forall v, In v grouped -> is_visited st5 v = true).
  { intros v Hv. apply (proj1 G5). apply mem_in. apply (rg_vis _ _ _ _ _ _ _ Rg). auto. }
  assert (Co5' : covers st5 (ql ++ qr ++ [cond] ++ rest ++ def1 ++ P)).
  { intros x Rx. rewrite !in_app_iff. destruct (Nat.eq_dec x cond) as [->|Nx]; [cbn; auto|]. pose proof (Rd5 x Rx Nx) as Rx4. destruct (Rd4 x Rx4 Nx) as [|[|Rx3]]; auto.
    assert (K : In x (conds ++ def1 ++ P)) by (apply Co1; exact Rx3). rewrite !in_app_iff in K. destruct K as [K|K]; [|tauto].
    destruct (Pg x K) as [Kg|]; [|auto]. apply Vg5 in Kg. destruct Rx as (_ & Z & _). congruence. }
  assert (Ph5 : phi st5 + 4 * length grouped <= phi st1).
  { pose proof (phi_drop st1 st5 grouped (proj1 G35) ND) as K.
    assert (W : 4 * length grouped <= list_sum (map weight grouped)). { clear. unfold list_sum, weight. induction grouped as [|x q IHq]; cbn in *; lia. }
    enough (phi st5 + list_sum (map weight grouped) <= phi st1) by lia. apply K. intros v Hv. destruct (Un v (Ig v Hv)) as (_ & Lv & _ & Uv & _). auto. }
  assert (Lg1 : 1 <= length grouped) by (destruct grouped; [contradiction|cbn; lia]).
  assert (Mc : length conds + length def1 + phi st1 <= length queue + length deferred + phi st) by exact M1.
  assert (Ns5 : no_selects st5).
  { destruct Ns1 as (Ns1 & Nv1 & Nu1). split; [|split].
    2: { intros a c Ha La Lc. apply Vis5. rewrite Ag5 in Ha. destruct (Nat.eqb_spec c jv) as [|Nc]; [auto|]. right. apply mem_in. apply (rg_vis _ _ _ _ _ _ _ Rg).
      change (s_g st3) with (s_g st1). change (s_visited st3) with (s_visited st1).
      destruct (Nat.lt_ge_cases c (g_next (s_g st1))) as [Lc1|Lc1].
      - destruct (in_dec Nat.eq_dec c grouped) as [|Kg]; [auto|]. left. apply mem_in. destruct (rg_same _ _ _ _ _ _ _ Rg c Lc1 Kg) as (_ & Z & _). rewrite Z in Ha. exact (Nv1 a c Ha La Lc).
      - right. right. split; auto. destruct (Nat.lt_ge_cases c jv) as [|Lc2]; auto. exfalso. unfold jv in *. rewrite (proj1 (cg_fresh _ CG4 c Lc2)) in Ha. contradiction. }
    2: { intros a c Ha. destruct (Nu1 a c Ha) as (c' & Hc'). destruct (Nat.lt_ge_cases c' (g_next (s_g st1))) as [Lc1|Lc1]; [|rewrite (proj1 (cg_fresh _ CG1 c' Lc1)) in Hc'; contradiction].
      destruct (in_dec Nat.eq_dec c' grouped) as [Kg|Kg].
      - destruct (Hc c' Kg) as (q & Eq). pose proof Kg as Kt. rewrite <- (rg_vs _ _ _ _ _ _ _ Rg) in Kt. apply in_map_iff in Kt. destruct Kt as (t & Et & Ht).
        destruct (rg_left _ _ _ _ _ _ _ Rg t Ht) as (X1 & _ & _ & c1 & a1 & b1 & X2 & X3). destruct (rg_right _ _ _ _ _ _ _ Rg t Ht) as (Y1 & _ & _ & c2 & a2 & b2 & Y2 & Y3).
        change (s_g st3) with (s_g st1) in *. rewrite Et in X2, Y2. rewrite X2 in Y2. injection Y2 as <- <- <-. rewrite X2 in Hc', Eq. injection Eq as -> _.
        destruct Hc' as [<-|[<-|[<-|[]]]].
        + exists jv. rewrite Ag5, Nat.eqb_refl. now left.
        + exists (tl_ t). rewrite Ag5. destruct (Nat.eqb_spec (tl_ t) jv); [unfold jv in *; lia|]. rewrite X3. now left.
        + exists (tr_ t). rewrite Ag5. destruct (Nat.eqb_spec (tr_ t) jv); [unfold jv in *; lia|]. rewrite Y3. now left.
      - exists c'. rewrite Ag5. destruct (Nat.eqb_spec c' jv); [unfold jv in *; lia|]. destruct (rg_same _ _ _ _ _ _ _ Rg c' Lc1 Kg) as (_ & -> & _). exact Hc'. }
    intros Ect v Pv K. rewrite Op5 in K. rewrite Pa5 in Pv. destruct (Nat.eqb_spec v jv); [discriminate|].
    destruct (Nat.lt_ge_cases v (g_next (s_g st1))) as [Lv|Lv].
    - destruct (in_dec Nat.eq_dec v grouped) as [Kg|Kg].
      + rewrite <- (rg_vs _ _ _ _ _ _ _ Rg) in Kg. apply in_map_iff in Kg. destruct Kg as (t & <- & Ht). destruct (rg_phi _ _ _ _ _ _ _ Rg t Ht) as (Z & _). congruence.
      + destruct (rg_same _ _ _ _ _ _ _ Rg v Lv Kg) as (Z1 & _ & Z2). rewrite Z1 in K. rewrite Z2 in Pv. exact (Ns1 Ect v Pv K).
    - destruct (Nat.lt_ge_cases v jv) as [Lv'|Lv'].
      + destruct (rg_new _ _ _ _ _ _ _ Rg v (conj Lv Lv')) as [Kg|Kg]; apply in_map_iff in Kg; destruct Kg as (t & <- & Ht).
        * destruct (rg_left _ _ _ _ _ _ _ Rg t Ht) as (_ & Z & _). congruence.
        * destruct (rg_right _ _ _ _ _ _ _ Rg t Ht) as (_ & Z & _). congruence.
      + rewrite (proj2 (cg_fresh _ CG4 v Lv')) in Pv. contradiction. }
  assert (Okc : ok cond).
  { destruct grouped as [|v gr]; [contradiction|]. destruct (Hc v (or_introl eq_refl)) as (l & El). destruct (R1 v) as (_ & Iv & Uv & _ & _); [apply Ig; now left|].
    pose proof (ok_lt T g0 ops0 P0 ok Ok1 v Iv) as Lv. pose proof (unvisited_unplaced _ _ _ _ _ _ _ _ _ v I1 Lv Uv) as Pv.
    destruct (unplaced_same _ _ _ _ _ _ _ _ _ v I1 Lv Pv) as [_ Av]. rewrite El in Av. apply (Ok2 v cond Iv). rewrite <- Av. now left. }
  assert (Le : e < n) by (rewrite <- Len; apply (sh_entry _ _ _ _ (c_shape _ _ _ _ _ _ _ _ _ (i_core _ _ _ _ _ _ _ _ _ I)))).
  (* the left branch *)
  destruct (IH st5 ql n [] r5 (redir n o e) (qr ++ [cond] ++ rest ++ def1 ++ P) I5) as (st6 & bk6 & later1 & E6 & G6 & S6 & Co6 & Ns6 & M6 & _ & Ba6); auto.
  { lia. } { intros x []. } { intros v t X Y. specialize (Hp5 v t X Y). lia. } { now apply (seen_grows st4). } { intros x []. }
  { intros a Ha. rewrite Al5 in Ha. destruct Ha as [<-|[]]. rewrite Bj5. discriminate. } { cbn [length]. clear - Ll4 Ph5 Mc Lg Lf Lg1. unfold name in *. lia. }
  rewrite E6. cbn [bind].
  destruct (process_inv A Q T g0 ops0 r0 P0 C0 ok Ok1 Ok2 ct opts f st5 ql n [] st6 bk6 later1 r5 (redir n o e) E6 I5) as (r6 & e6 & I6 & F6 & D6 & _ & K6 & _ & _).
  { lia. } { auto. } { intros x []. } { intros v t X Y. specialize (Hp5 v t X Y). lia. }
  rewrite K6 in * by (unfold redir; destruct (e =? o); lia). clear K6 e6. pose proof F6 as (_ & L6 & _ & _ & Ph6 & Sf6).
  (* the right branch *)
  assert (Hp6 : forall v t, op_of (s_g st6) v = OPhi -> parent (s_g st6) v = S t -> t <> S n).
  { intros v t X Y Et. subst t. destruct (Ph6 v (S n) X Y) as [X' Y']; [lia|lia|]. specialize (Hp5 v (S n) X' Y'). lia. }
  assert (Bj6 : bops (s_blocks st6) (S (S n)) <> []). { destruct (Sf6 (S (S n)) ltac:(lia)) as (l & ->). rewrite Bj5. intros K. apply app_eq_nil in K. destruct K. discriminate. }
  destruct (IH st6 qr (S n) later1 r6 (redir n o e) ([cond] ++ rest ++ def1 ++ P) I6) as (st7 & bk7 & later2 & E7 & G7 & S7 & Co7 & Ns7 & M7 & _ & Ba7); auto.
  { lia. } { apply (seen_grows st4); auto. now apply (grows_trans st4 st5 st6). }
  { intros x Rx. specialize (Co6 x Rx). rewrite !in_app_iff in *. tauto. }
  { intros a Ha. rewrite (Ba6 (S n) ltac:(lia) ltac:(lia)), Ar5 in Ha. destruct Ha as [<-|[]]. exact Bj6. } { cbn [length] in M6. clear - Ll4 Lr4 Ph5 Mc Lg Lf Lg1 M6. unfold name in *. lia. }
  rewrite E7. cbn [bind].
  destruct (process_inv A Q T g0 ops0 r0 P0 C0 ok Ok1 Ok2 ct opts f st6 qr (S n) later1 st7 bk7 later2 r6 (redir n o e) E7 I6) as (r7 & e7 & I7 & F7 & D7 & _ & K7 & _ & _); auto.
  { lia. }
  rewrite K7 in * by (unfold redir; destruct (e =? o); lia). clear K7 e7. pose proof F7 as (_ & L7 & _ & _ & Ph7 & Sf7).
  (* the rest, above *)
  set (q := if all_consumers_visited st7 cond then [cond] else []).
  assert (Lq : length q <= 1) by (unfold q; destruct (all_consumers_visited st7 cond); cbn; lia).
  assert (G17 : grows st1 st7) by (apply (grows_trans st1 st5 st7); auto; now apply (grows_trans st5 st6 st7)).
  destruct (IH st7 (q ++ later2 ++ rest) (S (S n)) def1 r7 (redir n o e) P I7) as (st8 & bk8 & def8 & E8 & G8 & S8 & Co8 & Ns8 & M8 & De8 & Ba8).
  - lia.
  - intros x Hx. rewrite !in_app_iff in Hx. destruct Hx as [Hx|[Hx|Hx]]; auto.
    + unfold q in Hx. destruct (all_consumers_visited st7 cond); [|destruct Hx]. destruct Hx as [<-|[]]. exact Okc.
    + apply (R1 x). auto.
  - exact D1.
  - intros v t X Y Et. subst t. destruct (Ph7 v (S (S n)) X Y) as [X' Y']; [lia|lia|]. destruct (Ph6 v (S (S n)) X' Y') as [X2 Y2]; [lia|lia|]. specialize (Hp5 v (S (S n)) X2 Y2). lia.
  - apply seen_app. split; [|apply seen_app; split; auto].
    + intros x Hx. unfold q in Hx. destruct (all_consumers_visited st7 cond) eqn:Ev; [|destruct Hx]. destruct Hx as [<-|[]]. auto.
    + apply (seen_grows st1); auto. intros x Hx. apply Sc1. auto.
  - now apply (seen_grows st1).
  - intros x Rx. pose proof (Co7 x Rx) as K. rewrite !in_app_iff in *. cbn [In] in K. destruct K as [|[[K|[]]|[|[|]]]]; auto. left. left. subst x.
    unfold q. destruct Rx as (_ & _ & _ & ->). now left.
  - exact Ns7.
  - intros a Ha. rewrite (Ba7 (S (S n)) ltac:(lia) ltac:(lia)), (Ba6 (S (S n)) ltac:(lia) ltac:(lia)), Aj5, A4 in Ha. destruct (An1 a Ha) as (La & Nao & Ne).
    destruct F5 as (_ & _ & _ & _ & _ & Sf5). fold n in Sf5. destruct (Sf5 a La) as (l5 & X5). destruct (Sf6 a ltac:(lia)) as (l6 & X6). destruct (Sf7 a ltac:(lia)) as (l7 & X7).
    rewrite X7, X6, X5. intros K. apply app_eq_nil in K. destruct K as [_ K]. apply app_eq_nil in K. destruct K as [_ K]. apply app_eq_nil in K. destruct K as [_ K]. contradiction.
  - rewrite !app_length. cbn [length] in M6. clear - Ll4 Lr4 Ph5 Mc Lg Lf Lg1 M6 M7 Lq. unfold name in *. lia.
  - fold q. rewrite E8. exists st8, bk8, def8. split; [reflexivity|]. split; [|split; [auto|split; [auto|split; [auto|split; [|split]]]]].
    + apply (grows_trans st st1 st8); auto. now apply (grows_trans st1 st7 st8).
    + rewrite !app_length in M8. cbn [length] in M6. clear - Ll4 Lr4 Ph5 Mc Lg Lf Lg1 M6 M7 M8 Lq. unfold name in *. lia.
    + intros Eoe. rewrite De8; auto. unfold redir. now rewrite Eoe, Nat.eqb_refl.
    + intros t Lt Nt. rewrite Ba8, Ba7, Ba6 by lia. rewrite At5 by lia. rewrite A4. apply Ba1.
Qed.
End Total.
