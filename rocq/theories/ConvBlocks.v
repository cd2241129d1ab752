(** What the converter does to blocks, field by field. *)
From Coq Require Import String List Arith ZArith Bool Lia Permutation.
From Verif Require Import Outcome NumProofs IrModel IrSpec IrProofs CfgModel CfgSpec CountProofs ConvModel ConvShape.
Import ListNotations.
Open Scope outcome_scope.
Open Scope nat_scope.

Lemma update_length {A} (l : list A) n f : length (update l n f) = length l.
Proof. revert n. induction l as [|x t IH]; intros [|n]; cbn; auto. Qed.
Lemma update_nth l n f t : n < length l -> nth_block (update l n f) t = if t =? n then f (nth_block l t) else nth_block l t.
Proof.
  unfold nth_block. revert n t. induction l as [|x q IH]; intros [|n] [|t] L; cbn in *; try lia; auto.
  apply IH. lia.
Qed.
Lemma update_out {A} (l : list A) n f : length l <= n -> update l n f = l.
Proof. revert n. induction l as [|x t IH]; intros [|n] L; cbn in *; auto; [lia|]. f_equal. apply IH. lia. Qed.
Lemma nth_block_out l t : length l <= t -> nth_block l t = mkb [] [] [].
Proof. intros L. unfold nth_block. now rewrite nth_overflow. Qed.
Lemma nth_block_app l x t : nth_block (l ++ [x]) t = if t =? length l then x else nth_block l t.
Proof.
  unfold nth_block. destruct (Nat.eqb_spec t (length l)) as [->|N]; [rewrite app_nth2, Nat.sub_diag by lia; reflexivity|].
  destruct (Nat.lt_ge_cases t (length l)); [now rewrite app_nth1|]. rewrite !nth_overflow; auto. rewrite app_length. cbn. lia.
Qed.

Notation bops l t := (b_ops (nth_block l t)).
Notation banc l t := (b_anc (nth_block l t)).
Notation bdesc l t := (b_desc (nth_block l t)).

Lemma if_app {A B} (f : A -> B) (b : bool) x y : f (if b then x else y) = if b then f x else f y.
Proof. now destruct b. Qed.

Lemma add_descendant_spec bl a b bl' : a < length bl -> b < length bl -> add_descendant bl a b = Ok bl' ->
  length bl' = length bl /\ (forall t, bops bl' t = bops bl t) /\
  (forall t, bdesc bl' t = if t =? a then bdesc bl t ++ [b] else bdesc bl t) /\
  (forall t, banc bl' t = if t =? b then banc bl t ++ [a] else banc bl t).
Proof.
  intros La Lb E. unfold add_descendant in E. destruct (in_set b _); [discriminate|]. unfold add_ancestor in E.
  destruct (in_set a _); [discriminate|]. injection E as <-. rewrite !update_length. split; [reflexivity|].
  split; [|split]; intros t; rewrite !update_nth by (rewrite ?update_length; auto).
  - destruct (t =? b), (t =? a); reflexivity.
  - destruct (t =? b), (t =? a); reflexivity.
  - destruct (t =? b), (t =? a); reflexivity.
Qed.
Lemma replace_descendant_spec g bl a t0 r bl' : a < length bl -> t0 < length bl -> r < length bl -> replace_descendant g bl a t0 r = Ok bl' ->
  t0 <> r /\ In t0 (bdesc bl a) /\ length bl' = length bl /\ (forall t, bops bl' t = bops bl t) /\
  (forall t, bdesc bl' t = if t =? a then replace_first t0 r (bdesc bl t) else bdesc bl t) /\
  (forall t, banc bl' t = if t =? r then banc bl t ++ [a] else if t =? t0 then remove_one a (banc bl t) else banc bl t).
Proof.
  intros La Lt Lr E. unfold replace_descendant in E. destruct (Nat.eqb_spec t0 r) as [|N]; [discriminate|]. cbv zeta in E.
  destruct (negb (match rev (bops bl a) with [] => _ | _ => _ end)); [discriminate|]. unfold remove_ancestor in E. destruct (in_set a (banc bl t0)) eqn:Ea; cbn [bind] in E; [|discriminate]. clear Ea.
  unfold add_ancestor in E. destruct (in_set a _); cbn [bind] in E; [discriminate|].
  destruct (in_set t0 (bdesc bl a)) eqn:Ed; [|discriminate]. injection E as <-. apply in_set_spec in Ed.
  split; [auto|]. split; [auto|]. rewrite !update_length. split; [reflexivity|].
  split; [|split]; intros t; rewrite !update_nth by (rewrite ?update_length; auto);
    destruct (Nat.eqb_spec t a), (Nat.eqb_spec t r), (Nat.eqb_spec t t0); subst; try reflexivity; try congruence.
Qed.

Lemma redirect_fold_spec g o j : forall P bl bl' rest, mfold (redirect g o j) P bl = Ok bl' ->
  o < length bl -> j < length bl -> (forall a, In a P -> a < length bl) -> NoDup P -> banc bl o = P ++ rest -> 
  length bl' = length bl /\ (forall t, bops bl' t = bops bl t) /\
  (forall t, bdesc bl' t = if mem t P then replace_first o j (bdesc bl t) else bdesc bl t) /\
  (forall t, banc bl' t = if t =? j then banc bl t ++ P else if t =? o then rest else banc bl t) /\
  (P <> [] -> o <> j) /\ (forall a, In a P -> In o (bdesc bl a)).
Proof.
  induction P as [|a P IH]; intros bl bl' rest E Lo Lj LP ND Eo; cbn [mfold] in E.
  - injection E as <-. split; [auto|]. split; [auto|]. split; [auto|]. split; [|split; [congruence|intros a []]].
    intros t. destruct (Nat.eqb_spec t j); [now rewrite app_nil_r|]. destruct (Nat.eqb_spec t o); [subst; now rewrite Eo|auto].
  - inversion ND as [|? ? Na ND']; subst. 
    destruct (redirect g o j bl a) as [bl1| | | |] eqn:E1; cbn [bind] in E; try discriminate.
    unfold redirect in E1. destruct (bops bl a); [discriminate|]. destruct (bdesc bl a) eqn:Eda; [discriminate|].
    destruct (replace_descendant_spec g bl a o j bl1) as (No & Ino & L1 & O1 & D1 & A1); auto; [apply LP; now left|].
    destruct (IH bl1 bl' rest E) as (L2 & O2 & D2 & A2 & _ & I2); rewrite ?L1; auto.
    { intros x Hx. apply LP. now right. }
    { rewrite A1. destruct (Nat.eqb_spec o j); [contradiction|]. rewrite Nat.eqb_refl, Eo. cbn. now rewrite Nat.eqb_refl. }
    split; [congruence|]. split; [intros t; now rewrite O2, O1|]. split; [|split; [|split; auto]].
    + intros t. rewrite D2, D1. cbn [mem existsb]. change (existsb (Nat.eqb t) P) with (mem t P).
      destruct (Nat.eqb_spec t a) as [->|Nt]; cbn [orb]; [|reflexivity].
      destruct (mem a P) eqn:M; [apply mem_in in M; contradiction|reflexivity].
    + intros t. rewrite A2, A1. destruct (Nat.eqb_spec t j) as [->|]; [now rewrite <- app_assoc|]. destruct (Nat.eqb_spec t o); auto.
    + intros x [->|Hx]; auto. specialize (I2 x Hx). rewrite D1 in I2. destruct (Nat.eqb_spec x a); [subst; auto|auto].
Qed.

Lemma replace_first_map o j : forall l, NoDup l -> replace_first o j l = map (fun x => if x =? o then j else x) l.
Proof.
  induction 1 as [|x t Hx ND IH]; cbn; auto. destruct (Nat.eqb_spec x o) as [->|N]; [|now rewrite IH]. f_equal.
  symmetry. erewrite map_ext_in; [apply map_id|]. intros y Hy. cbn. destruct (Nat.eqb_spec y o); congruence.
Qed.
Lemma replace_absent o j : forall l : list nat, ~ In o l -> map (fun x => if x =? o then j else x) l = l.
Proof.
  intros l Hl. erewrite map_ext_in; [apply map_id|]. intros y Hy. cbn. destruct (Nat.eqb_spec y o); congruence.
Qed.

(** Creating an operation. *)
Lemma create_operation_spec st b o t l st' v :
  b < length (s_blocks st) -> ~ In (g_next (s_g st)) l -> create_operation st b o t l = Ok (st', v) ->
  v = g_next (s_g st) /\ g_next (s_g st') = S v /\ s_visited st' = s_visited st /\
  length (s_blocks st') = length (s_blocks st) /\
  (forall x, op_of (s_g st') x = if x =? v then o else op_of (s_g st) x) /\
  (forall x, args (s_g st') x = if x =? v then maybe_sort o l else args (s_g st) x) /\
  (forall x, parent (s_g st') x = if x =? v then S b else parent (s_g st) x) /\
  (forall a c, count_occ Nat.eq_dec (cons_of (s_g st') a) c =
     (if a =? v then 0 else count_occ Nat.eq_dec (cons_of (s_g st) a) c) + (if c =? v then count_occ Nat.eq_dec l a else 0)) /\
  (forall x, bops (s_blocks st') x = if x =? b then bops (s_blocks st) x ++ [v] else bops (s_blocks st) x) /\
  (forall x, banc (s_blocks st') x = banc (s_blocks st) x) /\ (forall x, bdesc (s_blocks st') x = bdesc (s_blocks st) x).
Proof.
  intros Lb Hl E. unfold create_operation in E. destruct (push_value (s_g st) (S b) o t l) as [p| | | |] eqn:Ep; cbn [bind] in E; try discriminate.
  injection E as <- <-. assert (Ar : arity_ok o (length l) = true) by (unfold push_value in Ep; destruct (arity_ok o (length l)); [auto|discriminate]).
  destruct (push_spec (s_g st) (S b) o t l Ar Hl) as (g' & E' & H1 & H2 & H3 & H4 & H5 & H6). rewrite Ep in E'. injection E' as ->. cbn [fst snd s_g s_blocks s_visited].
  split; [auto|]. split; [auto|]. split; [auto|]. split; [apply update_length|]. split; [auto|]. split; [auto|]. split; [auto|].
  split; [intros a c; rewrite H6; reflexivity|].
  split; [|split]; intros x; rewrite update_nth by auto; destruct (x =? b); reflexivity.
Qed.

Section Branch.
Variables (st : cstate) (n o : nat) (cond : name) (phis : list name) (st' : cstate) (jb : nat).
Notation bl := (s_blocks st).
Notation l := n.
Notation r := (S n).
Notation j := (S (S n)).
Hypothesis Len : length bl = S (S n).
Hypothesis Lo : o < n.
Hypothesis El : banc bl l = [] /\ bdesc bl l = [].
Hypothesis Er : banc bl r = [] /\ bdesc bl r = [].
Hypothesis NDd : forall t, NoDup (bdesc bl t).
Hypothesis NDa : NoDup (banc bl o).
Hypothesis Edge : forall a x, In x (bdesc bl a) <-> In a (banc bl x).
Hypothesis Range : forall a x, In x (bdesc bl a) -> a < n /\ x < n.
Hypothesis Hc : cond < g_next (s_g st).
Hypothesis E : insert_branch st l r o cond phis = Ok (st', jb).

Lemma insert_branch_spec :
  let jv := g_next (s_g st) in
  jb = j /\ length (s_blocks st') = S (S (S n)) /\
  (bdesc (s_blocks st') j = [l; r] /\ bdesc (s_blocks st') l = [o] /\ bdesc (s_blocks st') r = [o] /\
   (forall t, t <> j -> t <> l -> t <> r -> bdesc (s_blocks st') t = map (redir n o) (bdesc bl t)) /\
   banc (s_blocks st') o = [l; r] /\ banc (s_blocks st') l = [j] /\ banc (s_blocks st') r = [j] /\ banc (s_blocks st') j = banc bl o /\
   (forall t, t <> o -> t <> l -> t <> r -> t <> j -> banc (s_blocks st') t = banc bl t)) /\
  (bops (s_blocks st') j = [jv] /\ (forall t, t <> j -> bops (s_blocks st') t = if t =? o then phis ++ bops bl t else bops bl t)) /\
  g_next (s_g st') = S jv /\ s_visited st' = jv :: s_visited st /\
  (forall x, op_of (s_g st') x = if x =? jv then OJump else op_of (s_g st) x) /\
  (forall x, args (s_g st') x = if x =? jv then [cond] else args (s_g st) x) /\
  (forall x, parent (s_g st') x = if x =? jv then S j else parent (s_g st) x) /\
  (forall a c, count_occ Nat.eq_dec (cons_of (s_g st') a) c =
     (if a =? jv then 0 else count_occ Nat.eq_dec (cons_of (s_g st) a) c) + (if c =? jv then count_occ Nat.eq_dec [cond] a else 0)).
Proof.
  cbn zeta. unfold insert_branch in E. set (st1 := insert_front st o phis) in *.
  assert (N1 : forall t, nth_block (s_blocks st1) t = if t =? o then with_ops (fun ops => phis ++ ops) (nth_block bl t) else nth_block bl t).
  { intros t. unfold st1, insert_front. cbn [s_blocks]. apply update_nth. lia. }
  assert (L1 : length (s_blocks st1) = S (S n)) by (unfold st1, insert_front; cbn [s_blocks]; now rewrite update_length).
  assert (B1 : forall t, bops (s_blocks st1) t = if t =? o then phis ++ bops bl t else bops bl t) by (intros t; rewrite N1; destruct (t =? o); reflexivity).
  assert (A1 : forall t, banc (s_blocks st1) t = banc bl t) by (intros t; rewrite N1; destruct (t =? o); reflexivity).
  assert (D1 : forall t, bdesc (s_blocks st1) t = bdesc bl t) by (intros t; rewrite N1; destruct (t =? o); reflexivity).
  clear N1.
  destruct (add_descendant (s_blocks st1) l o) as [bl2| | | |] eqn:E2; cbn [bind] in E; try discriminate.
  destruct (add_descendant_spec (s_blocks st1) l o bl2 ltac:(lia) ltac:(lia) E2) as (L2 & B2 & D2 & A2).
  destruct (add_descendant bl2 r o) as [bl3| | | |] eqn:E3; cbn [bind] in E; try discriminate.
  destruct (add_descendant_spec bl2 r o bl3 ltac:(lia) ltac:(lia) E3) as (L3 & B3 & D3 & A3).
  cbn [create_block s_g s_blocks s_visited] in E.
  destruct (create_operation _ _ OJump TVoid [cond]) as [p| | | |] eqn:E4; cbn [bind] in E; try discriminate.
  destruct p as [st4 jv]. 
  assert (Ej : length bl3 = j) by lia. rewrite Ej in *.
  assert (Hlen : j < length (bl3 ++ [mkb [] [] []])) by (rewrite app_length; cbn; lia).
  assert (Hin : ~ In (g_next (s_g st)) [cond]) by (intros [K|[]]; lia).
  pose proof (create_operation_spec (mks (s_g st1) (bl3 ++ [mkb [] [] []]) (s_visited st1)) j OJump TVoid [cond] st4 jv Hlen Hin E4) as C4.
  cbn [s_g s_blocks s_visited] in C4. destruct C4 as (-> & G4 & V4 & L4 & O4 & Ar4 & P4 & Co4 & B4 & A4 & D4).
  rewrite app_length in L4. cbn [length] in L4.
  assert (NB : forall t, nth_block (bl3 ++ [mkb [] [] []]) t = nth_block bl3 t).
  { intros t. rewrite nth_block_app. destruct (Nat.eqb_spec t (length bl3)) as [->|]; auto. rewrite nth_block_out; auto. }
  cbn [fst snd visit s_blocks s_g s_visited] in E.
  destruct (add_descendant (s_blocks st4) j l) as [bl5| | | |] eqn:E5; cbn [bind] in E; try discriminate.
  destruct (add_descendant_spec (s_blocks st4) j l bl5 ltac:(lia) ltac:(lia) E5) as (L5 & B5 & D5 & A5).
  destruct (add_descendant bl5 j r) as [bl6| | | |] eqn:E6; cbn [bind] in E; try discriminate.
  destruct (add_descendant_spec bl5 j r bl6 ltac:(lia) ltac:(lia) E6) as (L6 & B6 & D6 & A6).
  destruct (mfold _ _ bl6) as [bl7| | | |] eqn:E7; cbn [bind] in E; try discriminate. injection E as <- <-. cbn [s_blocks s_g s_visited].
  rewrite A1 in E7.
  assert (Out : forall t, n <= t -> bdesc bl t = [] /\ banc bl t = []).
  { intros t L. destruct (bdesc bl t) as [|x q] eqn:Eq.
    - split; auto. destruct (banc bl t) as [|x q] eqn:Eq'; auto. assert (In x (banc bl t)) as K by (rewrite Eq'; now left). apply Edge, Range in K. lia.
    - assert (In x (bdesc bl t)) as K by (rewrite Eq; now left). apply Range in K. lia. }
  destruct (redirect_fold_spec _ _ _ _ _ _ [l; r] E7) as (L7 & B7 & D7 & A7 & _ & I7).
  - lia.
  - lia.
  - intros a Ha. apply Edge, Range in Ha. lia.
  - exact NDa.
  - rewrite A6, A5, A4, NB, A3, A2, A1. destruct (Nat.eqb_spec o r); [lia|]. destruct (Nat.eqb_spec o l); [lia|]. rewrite Nat.eqb_refl. now rewrite <- app_assoc.
  - assert (D7' : forall t, t <> j -> t <> l -> t <> r -> bdesc bl6 t = bdesc bl t).
    { intros t Nj Nl Nr. rewrite D6, D5, D4, NB, D3, D2, D1. destruct (Nat.eqb_spec t j), (Nat.eqb_spec t r), (Nat.eqb_spec t l); try contradiction. reflexivity. }
    assert (M : forall t, n <= t -> mem t (banc bl o) = false).
    { intros t L. destruct (mem t (banc bl o)) eqn:Em; auto. apply mem_in in Em. apply Edge, Range in Em. lia. }
    split; [auto|]. split; [lia|]. split; [|split; [|split; [|split; [|split; [|split; [|split]]]]]].
    + split; [|split; [|split; [|split; [|split; [|split; [|split; [|split]]]]]]].
      * rewrite D7, M by lia. rewrite D6, D5, D4, NB, D3, D2, D1. rewrite Nat.eqb_refl.
        destruct (Nat.eqb_spec j r); [lia|]. destruct (Nat.eqb_spec j l); [lia|]. rewrite (proj1 (Out j ltac:(lia))). reflexivity.
      * rewrite D7, M by lia. rewrite D6, D5, D4, NB, D3, D2, D1. rewrite Nat.eqb_refl.
        destruct (Nat.eqb_spec l j); [lia|]. destruct (Nat.eqb_spec l r); [lia|]. rewrite (proj2 El). reflexivity.
      * rewrite D7, M by lia. rewrite D6, D5, D4, NB, D3, D2, D1. rewrite Nat.eqb_refl.
        destruct (Nat.eqb_spec r j); [lia|]. destruct (Nat.eqb_spec r l); [lia|]. rewrite (proj2 Er). reflexivity.
      * intros t Nj Nl Nr. rewrite D7, D7' by auto. destruct (mem t (banc bl o)) eqn:Em.
        -- rewrite replace_first_map by auto. reflexivity.
        -- unfold redir. rewrite replace_absent; auto. intros K. apply Edge in K. apply mem_in in K. congruence.
      * rewrite A7, Nat.eqb_refl. destruct (Nat.eqb_spec o j); [lia|]. reflexivity.
      * rewrite A7. destruct (Nat.eqb_spec l j); [lia|]. destruct (Nat.eqb_spec l o); [lia|]. rewrite A6, A5, A4, NB, A3, A2, A1, Nat.eqb_refl.
        destruct (Nat.eqb_spec l r); [lia|]. destruct (Nat.eqb_spec l o); [lia|]. rewrite (proj1 El). reflexivity.
      * rewrite A7. destruct (Nat.eqb_spec r j); [lia|]. destruct (Nat.eqb_spec r o); [lia|]. rewrite A6, A5, A4, NB, A3, A2, A1, Nat.eqb_refl.
        destruct (Nat.eqb_spec r l); [lia|]. destruct (Nat.eqb_spec r o); [lia|]. rewrite (proj1 Er). reflexivity.
      * rewrite A7, Nat.eqb_refl, A6, A5, A4, NB, A3, A2, A1.
        destruct (Nat.eqb_spec j r); [lia|]. destruct (Nat.eqb_spec j l); [lia|]. destruct (Nat.eqb_spec j o); [lia|].
        rewrite (proj2 (Out j ltac:(lia))). reflexivity.
      * intros t No Nl Nr Nj. rewrite A7, A6, A5, A4, NB, A3, A2, A1.
        destruct (Nat.eqb_spec t j), (Nat.eqb_spec t r), (Nat.eqb_spec t l), (Nat.eqb_spec t o); try contradiction. reflexivity.
    + split.
      * rewrite B7, B6, B5, B4, Nat.eqb_refl, NB, B3, B2, B1. destruct (Nat.eqb_spec j o); [lia|]. rewrite (nth_block_out (s_blocks st) j) by lia. reflexivity.
      * intros t Nt. rewrite B7, B6, B5, B4. destruct (Nat.eqb_spec t j); [contradiction|]. now rewrite NB, B3, B2, B1.
    + rewrite G4. reflexivity.
    + rewrite V4. reflexivity.
    + exact O4.
    + exact Ar4.
    + exact P4.
    + exact Co4.
Qed.
End Branch.
