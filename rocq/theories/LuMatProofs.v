(** The factorisation of matrices: between rows of elements and matrices, and that nothing goes out of bounds. *)
From Coq Require Import ZArith List Bool Reals Arith Lia Lra.
From Verif Require Import Outcome MatrixModel MatrixSpec MatrixProofs LuModel LuSpec DetProofs LuProofs.
Import ListNotations.
Open Scope nat_scope.
Open Scope outcome_scope.

Section T.
Context {E : Type}.
Variable ops : mat_ops E.
(** Scalar operations that always succeed. *)
Definition total_ops := (forall a b, exists e, op_mul ops a b = Ok e) /\ (forall a b, exists e, op_sub ops a b = Ok e) /\ (forall a b, exists e, op_div ops a b = Ok e).
Hypothesis T : total_ops.
Definition shape (n c : nat) (U : list (list E)) : Prop := length U = n /\ Forall (fun row => length row = c) U.

Lemma each_total {A B} (f : A -> outcome B) l : (forall x, In x l -> exists y, f x = Ok y) -> exists r, each f l = Ok r.
Proof.
  induction l as [|x l IH]; intros H; cbn [each]; eauto. destruct (H x (or_introl eq_refl)) as [y ->]. cbn [bind]. destruct IH as [r ->]; [intros; apply H; now right|]. cbn [bind]. eauto.
Qed.
Lemma shape_row n c U i : shape n c U -> i < n -> length (nth i U []) = c.
Proof. intros [L F] Hi. rewrite Forall_forall in F. apply F. apply nth_In. lia. Qed.
Lemma shape_intro n c U : length U = n -> (forall i, i < n -> length (nth i U []) = c) -> shape n c U.
Proof. intros L H. split; auto. apply Forall_forall. intros x Hx. apply (In_nth U x []) in Hx. destruct Hx as (i & Hi & <-). apply H. lia. Qed.
Lemma split_total c : forall U n, shape n (S c) U -> exists cs rows, split_rows U = Ok (cs, rows) /\ length cs = n /\ shape n c rows.
Proof.
  induction U as [|row U IH]; intros n [L F]; cbn [length split_rows] in *.
  - exists [], []. split; auto. split; auto. split; auto.
  - pose proof (Forall_inv F) as Lr. apply Forall_inv_tail in F. cbn beta in Lr. destruct row as [|x row]; [discriminate|].
    destruct (IH (pred n)) as (cs & rows & Hs & Lc & [L' F']); [split; [lia|auto]|]. rewrite Hs. cbn [bind fst snd]. do 2 eexists. split; [reflexivity|].
    split; [cbn; lia|]. cbn in Lr. split; [cbn; lia|]. constructor; auto.
Qed.
Lemma eliminate_total p x : forall r row, length r = length row -> exists row', eliminate ops p x r row = Ok row' /\ length row' = length row.
Proof.
  destruct T as (T1 & T2 & T3). induction r as [|y r IH]; intros [|u row] L; cbn [length] in L; try lia; cbn [eliminate].
  - eauto.
  - destruct (T1 x y) as [e1 ->]. cbn [bind]. destruct (T3 e1 p) as [e2 ->]. cbn [bind]. destruct (T2 u e2) as [e3 ->]. cbn [bind].
    destruct (IH row) as (t & -> & Lt); [lia|]. cbn [bind]. eexists. split; [reflexivity|]. cbn. lia.
Qed.
Lemma eliminate_rows_total p r c : length r = c -> forall cs rows n, length cs = n -> shape n c rows -> exists C, eliminate_rows ops p r cs rows = Ok C /\ shape n c C.
Proof.
  intros Lr. induction cs as [|x cs IH]; intros [|row rows] n Lc [L F]; cbn [length] in *; try lia; cbn [eliminate_rows].
  - eexists. split; [reflexivity|]. split; auto.
  - pose proof (Forall_inv F). apply Forall_inv_tail in F. destruct (eliminate_total p x r row) as (row' & -> & L'); [cbn in *; lia|]. cbn [bind].
    destruct (IH rows (pred n)) as (C & -> & [LC FC]); [lia|split; [lia|auto]|]. cbn [bind]. eexists. split; [reflexivity|]. split; [cbn; lia|]. constructor; auto. cbn in *; lia.
Qed.
Lemma lower_total n P c p : is_perm n (p_ P) -> length c = n -> exists l, lower_column ops P c p = Ok l /\ length l = n.
Proof.
  intros HP L. destruct T as (_ & _ & T3). unfold lower_column.
  destruct (each_total (fun i => match nth_error c (permuted_row_transposed P i) with Some e => op_div ops e p | None => UB end) (seq 0 (length c))) as [l Hl].
  - intros i Hi. apply in_seq in Hi. unfold permuted_row_transposed. destruct (perm_find n (p_ P) i HP ltac:(lia)) as [F1 _].
    destruct (nth_error c (find_index i (p_ P))) eqn:Nc; [apply T3|]. apply nth_error_None in Nc. lia.
  - exists l. split; auto. apply each_inv in Hl. destruct Hl as [Hl _]. rewrite seq_length in Hl. lia.
Qed.
Lemma permute_total n Q (r : list E) : is_perm n (p_ Q) -> length r = n -> exists l, permute_row Q r = Ok l /\ length l = n.
Proof.
  intros HQ L. unfold permute_row.
  destruct (each_total (fun j => let* k := permuted_row Q j in match nth_error r k with Some e => Ok e | None => UB end) (seq 0 (length r))) as [l Hl].
  - intros i Hi. apply in_seq in Hi. unfold permuted_row. pose proof HQ as (LQ & _). rewrite (err_of (p_ Q) i 0) by lia. cbn [bind].
    pose proof (perm_nth n (p_ Q) i HQ ltac:(lia)). destruct (nth_error r (nth i (p_ Q) 0)) eqn:Nc; [eauto|]. apply nth_error_None in Nc. lia.
  - exists l. split; auto. apply each_inv in Hl. destruct Hl as [Hl _]. rewrite seq_length in Hl. lia.
Qed.
Lemma lu_total : forall n c U, 1 <= n -> n <= c -> shape n c U -> exists P L U' Q, lu ops n c U = Ok (P, L, U', Q) /\
  is_perm n (p_ P) /\ is_perm c (p_ Q) /\ shape n n L /\ shape n c U'.
Proof.
  induction n as [|n IH]; intros c U Hn Hc HU; [lia|]. destruct n as [|m].
  - cbn [lu]. do 4 eexists. split; [reflexivity|]. split; [apply (perm_id_ok 1)|]. split; [apply perm_id_ok|]. split; auto. split; auto.
  - remember (S m) as n eqn:En. cbn [lu]. assert (Hm : forall A (X Y : A), match n with O => X | S _ => Y end = Y) by (intros; now rewrite En). rewrite Hm. destruct (find_pivot ops U) as [[pr pc]|] eqn:Fp.
    2: { do 4 eexists. split; [reflexivity|]. split; [apply perm_id_ok|]. split; [apply perm_id_ok|]. split; auto.
      apply shape_intro; [unfold unit_rows; now rewrite map_length, seq_length|]. intros i Hi. rewrite unit_rows_nth by auto. apply unit_row_length. }
    destruct (pivot_some ops U pr pc Fp) as (Hpr & Hpc & _). pose proof HU as [LU _]. rewrite (shape_row (S n) c U) in Hpc by (auto; lia). rewrite LU in Hpr.
    assert (K1 : exists U1, (if Nat.eqb pr 0 then Ok U else swap_nth U pr 0) = Ok U1 /\ shape (S n) c U1).
    { destruct (Nat.eqb_spec pr 0) as [->|Nz]; [eauto|]. destruct (swap_ok U pr 0) as [U1 S1]; try lia. exists U1. split; auto.
      destruct (swap_inv _ _ _ _ [] S1) as (_ & _ & L1 & N1). apply shape_intro; [lia|]. intros i Hi. rewrite N1. apply (shape_row (S n)); auto. 
      destruct (Nat.eqb_spec i 0); [lia|]. destruct (Nat.eqb_spec i pr); lia. }
    destruct K1 as (U1 & -> & H1). cbn [bind].
    assert (K2 : exists U2, (if Nat.eqb pc 0 then Ok U1 else each (fun row => swap_nth row pc 0) U1) = Ok U2 /\ shape (S n) c U2).
    { destruct (Nat.eqb_spec pc 0) as [->|Nz]; [eauto|]. pose proof H1 as [L1 F1]. destruct (each_total (fun row => swap_nth row pc 0) U1) as [U2 S2].
      { intros row Hrow. rewrite Forall_forall in F1. specialize (F1 row Hrow). apply swap_ok; lia. }
      exists U2. split; auto. apply each_inv in S2. destruct S2 as [L2 F2]. apply shape_intro; [lia|]. intros i Hi.
      destruct (F2 i (nth i U1 [])) as (y & Ny & Hy). { apply err_of. lia. } apply (nth_of _ _ _ []) in Ny. rewrite Ny. 
      destruct (nth i U1 []) as [|e0 t0] eqn:Erow. { pose proof (shape_row (S n) c U1 i H1 Hi) as Q. rewrite Erow in Q. cbn in Q. lia. }
      destruct (swap_inv _ _ _ _ e0 Hy) as (_ & _ & L3 & _). rewrite L3, <- Erow. now apply (shape_row (S n)). }
    destruct K2 as (U2 & -> & [L2 F2]). cbn [bind]. destruct U2 as [|[|pivot r_t] rest]; [discriminate|apply Forall_inv in F2; cbn in F2; lia|].
    pose proof (Forall_inv F2) as Lr. apply Forall_inv_tail in F2. cbn [length] in L2, Lr. assert (Hc' : c = S (pred c)) by lia.
    destruct (split_total (pred c) rest n) as (cs & rows & Sp & Lc & Hrows); [split; [lia|now rewrite <- Hc']|]. rewrite Sp. cbn [bind fst snd].
    destruct (eliminate_rows_total pivot r_t (pred c) ltac:(lia) cs rows n Lc Hrows) as (C & -> & HC). cbn [bind].
    destruct (IH (pred c) C) as (P & L & U' & Q & -> & HP & HQ & HL & HU'); auto; try lia. cbn [bind].
    pose proof HP as (LP & _). pose proof HQ as (LQ & _). rewrite LP, Lc, Nat.eqb_refl. cbn [negb]. destruct (lower_total n P cs pivot HP Lc) as (l & -> & Ll). cbn [bind].
    replace (length r_t) with (pred c) by lia. rewrite LQ, Nat.eqb_refl. cbn [negb]. destruct (permute_total (pred c) Q r_t HQ ltac:(lia)) as (r & -> & Lr'). cbn [bind].
    assert (KP : exists P', shift_down_and_swap P pr = Ok P').
    { unfold shift_down_and_swap. destruct (Nat.eqb pr 0); [eauto|]. cbn [length]. rewrite map_length. destruct (Nat.ltb_spec pr (S (length (p_ P)))); [|lia]. cbn [negb].
      destruct (swap_ok (0 :: map S (p_ P)) 0 pr) as [p' ->]; cbn [length]; rewrite ?map_length; try lia. cbn [bind]. eauto. }
    destruct KP as [P' KP]. rewrite KP. cbn [bind].
    assert (KQ : exists Q', shift_down_and_swap_right Q pc = Ok Q').
    { unfold shift_down_and_swap_right. set (p := 0 :: map S (p_ Q)). assert (Lp : length p = c) by (unfold p; cbn; rewrite map_length; lia).
      assert (In pc p). { unfold p. destruct pc as [|pc]; [now left|]. right. apply in_map. apply (perm_in (pred c)); auto. lia. }
      destruct (find_lt pc p H) as [F1 _]. destruct (Nat.eqb_spec (find_index pc p) (length p)); [lia|]. destruct (Nat.eqb (find_index pc p) 0); [eauto|].
      destruct (swap_ok p (find_index pc p) 0) as [p' ->]; try lia. cbn [bind]. eauto. }
    destruct KQ as [Q' KQ]. rewrite KQ. cbn [bind]. do 4 eexists. split; [reflexivity|].
    split; [now apply (shift_down_ok n P pr P' HP KP)|]. split; [rewrite Hc'; now apply (shift_right_ok (pred c) Q pc Q' HQ ltac:(lia) KQ)|].
    destruct HL as [LL FL]. destruct HU' as [LU' FU']. split.
    + split; [cbn; rewrite map_length, combine_length; lia|]. constructor; [cbn; now rewrite repeat_length|]. apply Forall_forall. intros x Hx. apply in_map_iff in Hx.
      destruct Hx as ([y t] & <- & Hy). apply in_combine_r in Hy. rewrite Forall_forall in FL. cbn. now rewrite (FL t Hy).
    + split; [cbn; rewrite map_length; lia|]. constructor; [cbn; lia|]. apply Forall_forall. intros x Hx. apply in_map_iff in Hx.
      destruct Hx as (t & <- & Hy). rewrite Forall_forall in FU'. cbn. rewrite (FU' t Hy). lia.
Qed.
End T.

(** ** Rows of a matrix *)
Section R.
Context {E : Type}.
Variable ops : mat_ops E.
Notation z := (op_zero ops).
Lemma nth_firstn_skipn (l : list E) a c j d : j < c -> nth j (firstn c (skipn a l)) d = nth (a + j) l d.
Proof.
  revert l. induction a as [|a IH]; intros l Hj.
  - cbn [skipn plus]. revert l j Hj. induction c as [|c IHc]; intros l j Hj; [lia|]. destruct l as [|x l]; [destruct j; reflexivity|]. destruct j as [|j]; cbn; auto. apply IHc. lia.
  - destruct l as [|x l]; cbn [skipn plus nth]; [rewrite firstn_nil; destruct j; reflexivity|]. now apply IH.
Qed.
Lemma skipn_skipn (l : list E) : forall a b, skipn a (skipn b l) = skipn (b + a) l.
Proof. intros a b. revert l. induction b as [|b IH]; intros l; cbn [plus skipn]; auto. destruct l; [apply skipn_nil|]. apply IH. Qed.
Lemma chunks_nth c : forall n (data : list E) i, i < n -> nth i (chunks n c data) [] = firstn c (skipn (i * c) data).
Proof.
  induction n as [|n IH]; intros data i Hi; [lia|]. cbn [chunks]. destruct i as [|i]; [reflexivity|]. cbn [nth]. rewrite IH by lia. now rewrite skipn_skipn.
Qed.
Lemma chunks_length n c data : length (chunks (E := E) n c data) = n.
Proof. revert data. induction n as [|n IH]; intros; cbn [chunks length]; auto. Qed.
Lemma concat_length n c (U : list (list E)) : shape n c U -> length (concat U) = n * c.
Proof.
  intros [L F]. revert n L. induction F as [|row U Hr F IH]; intros n L; cbn [length concat] in *; [subst; reflexivity|]. rewrite app_length, Hr.
  rewrite (IH (pred n)) by lia. destruct n; cbn; lia.
Qed.
Lemma concat_nth c d : forall U n i j, shape (E := E) n c U -> i < n -> j < c -> nth (i * c + j) (concat U) d = nth j (nth i U []) d.
Proof.
  induction U as [|row U IH]; intros n i j [L F] Hi Hj; cbn [length concat] in *; [lia|]. pose proof (Forall_inv F) as Lr. apply Forall_inv_tail in F. cbn beta in Lr.
  destruct i as [|i].
  - cbn [mult plus nth]. apply app_nth1. lia.
  - cbn [nth]. rewrite app_nth2 by (cbn; lia). rewrite Lr. replace (S i * c + j - c) with (i * c + j) by (cbn; lia). apply (IH (pred n)); auto; [split; [lia|auto]|lia].
Qed.
Lemma rows_shape n c (data : list E) : length data = n * c -> shape n c (chunks n c data).
Proof.
  intros L. apply shape_intro; [apply chunks_length|]. intros i Hi. rewrite chunks_nth by auto. rewrite firstn_length, skipn_length. nia.
Qed.
Lemma rows_el n c (data : list E) i j : length data = n * c -> i < n -> j < c -> el ops (chunks n c data) i j = nth (i * c + j) data z.
Proof. intros L Hi Hj. unfold el. rewrite chunks_nth by auto. now apply nth_firstn_skipn. Qed.

Lemma make_rows n c U : shape n c U -> in_i64 (Z.of_nat n) -> in_i64 (Z.of_nat c) -> in_i64 (Z.of_nat n * Z.of_nat c) ->
  exists m, make_matrix (Z.of_nat n) (Z.of_nat c) (concat U) = Ok m /\ m_rows m = Z.of_nat n /\ m_cols m = Z.of_nat c /\ valid m /\
  forall i j, i < n -> j < c -> entry m (Z.of_nat i) (Z.of_nat j) = Some (el ops U i j).
Proof.
  intros Sh I1 I2 I3. pose proof (concat_length n c U Sh) as L. destruct (make_ok (Z.of_nat n) (Z.of_nat c) (concat U)) as [M V]; auto; try lia.
  eexists. split; [exact M|]. split; auto. split; auto. split; auto. intros i j Hi Hj. rewrite entry_of by (split; lia).
  replace (Z.to_nat (Z.of_nat i * Z.of_nat c + Z.of_nat j)) with (i * c + j) by nia.
  rewrite (err_of _ _ z) by (rewrite L; nia). f_equal. unfold el. now apply (concat_nth c z U n).
Qed.
Variables (good : E -> Prop) (v : E -> R).
Lemma dims_shape n c U : dims good n c U -> shape n c U.
Proof. intros [L F]. split; auto. eapply Forall_impl; [|exact F]. intros row [H _]. exact H. Qed.
Lemma make_values n c U m : dims good n c U -> in_i64 (Z.of_nat n) -> in_i64 (Z.of_nat c) -> in_i64 (Z.of_nat n * Z.of_nat c) ->
  make_matrix (Z.of_nat n) (Z.of_nat c) (concat U) = Ok m ->
  has_values good v m (Z.of_nat n) (Z.of_nat c) (fun i j => vel ops v U (Z.to_nat i) (Z.to_nat j)).
Proof.
  intros D I1 I2 I3 H. destruct (make_rows n c U (dims_shape n c U D) I1 I2 I3) as (m' & H' & R & C & V & F). assert (m' = m) by congruence. subst m'.
  split; auto. split; auto. split; auto. intros i j [Hi Hj]. specialize (F (Z.to_nat i) (Z.to_nat j) ltac:(lia) ltac:(lia)). rewrite !Z2Nat.id in F by lia.
  exists (el ops U (Z.to_nat i) (Z.to_nat j)). split; auto. split; [|reflexivity]. apply (dims_good ops good n c); auto; lia.
Qed.
Lemma values_rows A r c AV : has_values good v A r c AV ->
  let U := chunks (Z.to_nat r) (Z.to_nat c) (m_data A) in dims good (Z.to_nat r) (Z.to_nat c) U /\
  forall i j, i < Z.to_nat r -> j < Z.to_nat c -> vel ops v U i j = AV (Z.of_nat i) (Z.of_nat j).
Proof.
  intros (V & HR & HC & F) U. pose proof V as (A1 & A2 & A3 & A4 & A5 & A6). rewrite HR, HC in *.
  assert (L : length (m_data A) = Z.to_nat r * Z.to_nat c) by nia.
  assert (K : forall i j, i < Z.to_nat r -> j < Z.to_nat c -> good (el ops U i j) /\ vel ops v U i j = AV (Z.of_nat i) (Z.of_nat j)).
  { intros i j Hi Hj. assert (I : in_range r c (Z.of_nat i) (Z.of_nat j)) by (split; lia). destruct (F _ _ I) as (e & He & Ge & Ve).
    assert (Hel : el ops U i j = e).
    { unfold U. rewrite rows_el by auto. destruct (entry_some A (Z.of_nat i) (Z.of_nat j) V) as (e' & He' & N'); [now rewrite HR, HC|].
      apply (nth_of _ _ _ z) in N'. rewrite HC in N'. replace (Z.to_nat (Z.of_nat i * c + Z.of_nat j)) with (i * Z.to_nat c + j) in N' by nia. congruence. }
    unfold vel. rewrite Hel. auto. }
  split; [|intros; now apply K]. destruct (rows_shape (Z.to_nat r) (Z.to_nat c) (m_data A) L) as [S1 S2]. fold U in S1, S2.
  apply dims_intro; auto. intros i Hi. assert (Lrow : length (nth i U []) = Z.to_nat c) by (apply (shape_row (Z.to_nat r)); auto; split; auto). split; auto.
  apply (good_nth ops). intros j Hj. apply (K i j); lia.
Qed.

(** Sums over natural numbers and over integers. *)
Lemma sum_n_N n f : sum_n n f = sumN n (fun k => f (Z.of_nat k)).
Proof. induction n as [|n IH]; cbn [sum_n sumN]; auto. now rewrite IH. Qed.
End R.
