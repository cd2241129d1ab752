(** Properties of the LU factorisation and of the determinant. *)
From Coq Require Import ZArith List Bool Reals Arith Lia Lra.
From Verif Require Import Outcome ExprModel ExprSpec BuildModel BuildProps MatrixModel MatOpsModel MatrixSpec MatrixProofs MatrixProps
  LuModel LuSpec DetProofs LuProofs LuMatProofs.
Import ListNotations.
Open Scope Z_scope.
Open Scope outcome_scope.

(** No pivot is a number that is zero without being recognised as the constant zero. The last diagonal element is not
    divided by. *)
Definition pivots_ok {E} (ops : mat_ops E) (v : E -> R) (r : Z) (U : matrix E) : Prop :=
  forall i e, 0 <= i -> i + 1 < r -> entry U i i = Some e -> op_is_zero ops e = true \/ v e <> 0%R.

Definition perm_value (p : list nat) : mat := fun i j => if Nat.eqb (nth (Z.to_nat i) p O) (Z.to_nat j) then 1%R else 0%R.
Lemma perm_value_ok n p : is_perm n p -> permutation_matrix (Z.of_nat n) (perm_value p).
Proof.
  intros H. exists (fun i => Z.of_nat (nth (Z.to_nat i) p O)). split; [|split].
  - intros i Hi. pose proof (perm_nth n p (Z.to_nat i) H ltac:(lia)). lia.
  - intros i j Hi Hj E. apply Nat2Z.inj in E. apply (perm_inj n p) in E; auto; lia.
  - intros i j [Hi Hj]. unfold perm_value. destruct (Nat.eqb_spec (nth (Z.to_nat i) p O) (Z.to_nat j)), (Z.eqb_spec (Z.of_nat (nth (Z.to_nat i) p O)) j); auto; lia.
Qed.

Section L.
Context {E : Type}.
Variable ops : mat_ops E.
Lemma eliminate_length p x : forall r row row', eliminate ops p x r row = Ok row' -> length r = length row -> length row' = length row.
Proof.
  induction r as [|y r IH]; intros [|u row] row' H L; cbn [length] in L; try lia; cbn [eliminate] in H.
  - now injection H as <-.
  - destruct (op_mul ops x y) as [a| | | |]; try discriminate. cbn [bind] in H. destruct (op_div ops a p) as [b| | | |]; try discriminate. cbn [bind] in H.
    destruct (op_sub ops u b) as [c| | | |]; try discriminate. cbn [bind] in H. destruct (eliminate ops p x r row) as [t| | | |] eqn:T; try discriminate. cbn [bind] in H.
    injection H as <-. cbn. f_equal. apply IH; auto.
Qed.
Lemma eliminate_rows_shape p r c : length r = c -> forall cs rows n C, eliminate_rows ops p r cs rows = Ok C -> length cs = n -> shape n c rows -> shape n c C.
Proof.
  intros Lr. induction cs as [|x cs IH]; intros [|row rows] n C H Lc [L F]; cbn [length] in *; try lia; cbn [eliminate_rows] in H.
  - injection H as <-. split; auto.
  - pose proof (Forall_inv F) as Lrow. apply Forall_inv_tail in F. cbn beta in Lrow. destruct (eliminate ops p x r row) as [row'| | | |] eqn:El; try discriminate. cbn [bind] in H.
    destruct (eliminate_rows ops p r cs rows) as [t| | | |] eqn:T; try discriminate. cbn [bind] in H. injection H as <-.
    destruct (IH rows (pred n) t) as [A B]; auto; [lia|split; [lia|auto]|]. apply eliminate_length in El; [|lia]. split; [cbn; lia|]. constructor; auto. lia.
Qed.
Lemma lu_shape : forall n c U P L U' Q, (1 <= n -> n <= c -> shape n c U -> lu ops n c U = Ok (P, L, U', Q) ->
  is_perm n (p_ P) /\ is_perm c (p_ Q) /\ shape n n L /\ shape n c U')%nat.
Proof.
  induction n as [|n IH]; intros c U P L U' Q Hn Hc HU H; [lia|]. destruct n as [|m].
  - cbn [lu] in H. injection H as <- <- <- <-. split; [apply (perm_id_ok 1)|]. split; [apply perm_id_ok|]. split; auto. split; auto.
  - remember (S m) as n eqn:En. cbn [lu] in H. rewrite En in H at 1. destruct (find_pivot ops U) as [[pr pc]|] eqn:Fp.
    2: { injection H as <- <- <- <-. split; [apply perm_id_ok|]. split; [apply perm_id_ok|]. split; auto.
      apply shape_intro; [unfold unit_rows; now rewrite map_length, seq_length|]. intros i Hi. rewrite unit_rows_nth by auto. apply unit_row_length. }
    destruct (pivot_some ops U pr pc Fp) as (Hpr & Hpc & _). pose proof HU as [LU _]. rewrite (shape_row (S n) c U) in Hpc by (auto; lia). rewrite LU in Hpr.
    destruct (if Nat.eqb pr 0 then Ok U else swap_nth U pr 0) as [U1| | | |] eqn:S1; try discriminate. cbn [bind] in H.
    assert (H1 : shape (S n) c U1).
    { destruct (Nat.eqb_spec pr 0) as [->|Nz]; [now injection S1 as <-|].
      destruct (swap_inv _ _ _ _ [] S1) as (_ & _ & L1 & N1). apply shape_intro; [lia|]. intros i Hi. rewrite N1. apply (shape_row (S n)); auto. 
      destruct (Nat.eqb_spec i 0); [lia|]. destruct (Nat.eqb_spec i pr); lia. }
    destruct (if Nat.eqb pc 0 then Ok U1 else each _ U1) as [U2| | | |] eqn:S2; try discriminate. cbn [bind] in H.
    assert (H2 : shape (S n) c U2).
    { destruct (Nat.eqb_spec pc 0) as [->|Nz]; [now injection S2 as <-|]. pose proof H1 as [L1 F1]. 
      apply each_inv in S2. destruct S2 as [L2 F2]. apply shape_intro; [lia|]. intros i Hi.
      destruct (F2 i (nth i U1 [])) as (y & Ny & Hy). { apply err_of. lia. } apply (nth_of _ _ _ []) in Ny. rewrite Ny. 
      destruct (swap_inv _ _ _ _ (op_zero ops) Hy) as (_ & _ & L3 & _). rewrite L3. now apply (shape_row (S n)). }
    destruct H2 as [L2 F2]. destruct U2 as [|[|pivot r_t] rest]; try discriminate.
    pose proof (Forall_inv F2) as Lr. apply Forall_inv_tail in F2. cbn [length] in L2, Lr. assert (Hc' : c = S (pred c)) by lia.
    destruct (split_total (pred c) rest n) as (cs & rows & Sp & Lc & Hrows); [split; [lia|now rewrite <- Hc']|]. rewrite Sp in H. cbn [bind fst snd] in H.
    destruct (eliminate_rows ops pivot r_t cs rows) as [C| | | |] eqn:El; try discriminate. cbn [bind] in H.
    apply (eliminate_rows_shape pivot r_t (pred c) ltac:(lia) cs rows n) in El; auto.
    destruct (lu ops n (pred c) C) as [[[[P1 L1] U1'] Q1]| | | |] eqn:Rec; try discriminate. cbn [bind] in H.
    destruct (IH (pred c) C P1 L1 U1' Q1) as (HP & HQ & [LL FL] & [LU' FU']); auto; try lia.
    destruct (negb _) eqn:G1 in H; [discriminate|]. destruct (lower_column ops P1 cs pivot) as [l| | | |] eqn:Lo; try discriminate. cbn [bind] in H.
    destruct (negb _) eqn:G2 in H; [discriminate|]. destruct (permute_row Q1 r_t) as [r| | | |] eqn:Pe; try discriminate. cbn [bind] in H.
    destruct (shift_down_and_swap P1 pr) as [P2| | | |] eqn:SP; try discriminate. cbn [bind] in H.
    destruct (shift_down_and_swap_right Q1 pc) as [Q2| | | |] eqn:SQ; try discriminate. cbn [bind] in H. injection H as <- <- <- <-.
    split; [now apply (shift_down_ok n P1 pr P2 HP SP)|]. split; [rewrite Hc'; now apply (shift_right_ok (pred c) Q1 pc Q2 HQ ltac:(lia) SQ)|].
    unfold lower_column in Lo. apply each_inv in Lo. destruct Lo as [Lo _]. rewrite seq_length in Lo. unfold permute_row in Pe. apply each_inv in Pe. destruct Pe as [Pe _]. rewrite seq_length in Pe.
    split.
    + split; [cbn; rewrite map_length, combine_length; lia|]. constructor; [cbn; now rewrite repeat_length|]. apply Forall_forall. intros x Hx. apply in_map_iff in Hx.
      destruct Hx as ([y t] & <- & Hy). apply in_combine_r in Hy. rewrite Forall_forall in FL. cbn. now rewrite (FL t Hy).
    + split; [cbn; rewrite map_length; lia|]. constructor; [cbn; lia|]. apply Forall_forall. intros x Hx. apply in_map_iff in Hx.
      destruct Hx as (t & <- & Hy). rewrite Forall_forall in FU'. cbn. rewrite (FU' t Hy). lia.
Qed.

Lemma perm_shape n p : is_perm n p -> shape n n (map (unit_row ops n) p).
Proof.
  intros (L & _). split; [now rewrite map_length|]. apply Forall_forall. intros x Hx. apply in_map_iff in Hx. destruct Hx as (i & <- & _). apply unit_row_length.
Qed.
(** The factorisation is that of the rows, with matrices made from the rows. *)
Lemma factorize_rows A r c : valid A -> m_rows A = r -> m_cols A = c -> in_i64 (c * c) -> forall P L U Q, lu_matrix ops A = Ok (P, L, U, Q) ->
  1 <= r /\ r <= c /\ lu ops (Z.to_nat r) (Z.to_nat c) (chunks (Z.to_nat r) (Z.to_nat c) (m_data A)) = Ok (P, L, U, Q) /\
  exists MP ML MU MQ, factorize_full_piv_lu ops A = Ok (MP, ML, MU, MQ) /\
  make_matrix r r (concat L) = Ok ML /\ make_matrix r c (concat U) = Ok MU /\
  make_matrix r r (concat (map (unit_row ops (Z.to_nat r)) (p_ P))) = Ok MP /\ make_matrix c c (concat (map (unit_row ops (Z.to_nat c)) (p_ Q))) = Ok MQ /\
  (forall i j, (i < Z.to_nat r)%nat -> (j < Z.to_nat c)%nat -> entry MU (Z.of_nat i) (Z.of_nat j) = Some (el ops U i j)).
Proof.
  intros V HR HC I P L U Q H. pose proof V as (A1 & A2 & A3 & A4 & A5 & A6). unfold factorize_full_piv_lu. rewrite H. cbn [bind]. unfold lu_matrix in H. rewrite HR, HC in *.
  destruct (Z.ltb_spec c r); [discriminate|]. assert (Hr : 1 <= r). { destruct (Z.to_nat r) eqn:Er; [discriminate H|]. lia. }
  split; auto. split; auto. split; auto.
  assert (Sh : shape (Z.to_nat r) (Z.to_nat c) (chunks (Z.to_nat r) (Z.to_nat c) (m_data A))) by (apply rows_shape; nia).
  destruct (lu_shape (Z.to_nat r) (Z.to_nat c) _ P L U Q ltac:(lia) ltac:(lia) Sh H) as (HP & HQ & HL & HU).
  assert (I' : in_i64 (r * r)) by (i64; nia).
  destruct (make_rows ops (Z.to_nat r) (Z.to_nat r) L HL) as (ML & EL & _ & _ & _ & FL); rewrite ?Z2Nat.id in * by lia; auto.
  destruct (make_rows ops (Z.to_nat r) (Z.to_nat c) U HU) as (MU & EU & _ & _ & _ & FU); rewrite ?Z2Nat.id in * by lia; auto.
  destruct (make_rows ops (Z.to_nat r) (Z.to_nat r) _ (perm_shape _ _ HP)) as (MP & EP & _ & _ & _ & FP); rewrite ?Z2Nat.id in * by lia; auto.
  destruct (make_rows ops (Z.to_nat c) (Z.to_nat c) _ (perm_shape _ _ HQ)) as (MQ & EQ & _ & _ & _ & FQ); rewrite ?Z2Nat.id in * by lia; auto.
  exists MP, ML, MU, MQ. rewrite EL, EU. cbn [bind]. unfold matrix_of_permutation. pose proof HP as (LP & _). pose proof HQ as (LQ & _).
  rewrite LP, LQ, !Z2Nat.id by lia. rewrite EP, EQ. cbn [bind]. split; [reflexivity|]. repeat (split; [assumption || reflexivity|]). exact FU.
Qed.

Variables (good : E -> Prop) (v : E -> R).
Hypothesis SO : sound_ops ops good v.
Lemma perm_dims n p : is_perm n p -> dims good n n (map (unit_row ops n) p).
Proof.
  intros (L & _). split; [now rewrite map_length|]. apply Forall_forall. intros x Hx. apply in_map_iff in Hx. destruct Hx as (i & <- & _). split; [apply unit_row_length|eapply unit_row_good; eauto].
Qed.
Lemma perm_vel n p i j : is_perm n p -> (i < n)%nat -> (j < n)%nat ->
  vel ops v (map (unit_row ops n) p) i j = perm_value p (Z.of_nat i) (Z.of_nat j).
Proof.
  intros (L & _) Hi Hj. unfold vel, el, perm_value. rewrite ?Nat2Z.id. rewrite (nth_indep _ [] (unit_row ops n O)) by (rewrite map_length; lia). rewrite map_nth, unit_row_nth by auto.
  destruct (Nat.eqb (nth i p O) j); apply SO.
Qed.
End L.

Lemma has_values_ext {E} (good : E -> Prop) v m r c f g : (forall i j, in_range r c i j -> f i j = g i j) -> has_values good v m r c f -> has_values good v m r c g.
Proof.
  intros H (V & R & C & F). split; auto. split; auto. split; auto. intros i j Hij. destruct (F i j Hij) as (e & He & Ge & Ve). exists e. split; auto. split; auto. now rewrite <- H.
Qed.

(** ** C22 *)
Theorem C22_factorisation : forall E (ops : mat_ops E) good v, sound_ops ops good v ->
  forall A r c AV P L U Q, has_values good v A r c AV -> in_i64 (c * c) -> factorize_full_piv_lu ops A = Ok (P, L, U, Q) -> pivots_ok ops v r U ->
  exists PV LV UV QV : mat, has_values good v P r r PV /\ has_values good v L r r LV /\ has_values good v U r c UV /\ has_values good v Q c c QV /\
  permutation_matrix r PV /\ unit_lower r LV /\ upper r c UV /\ permutation_matrix c QV /\
  forall i j, in_range r c i j -> AV i j = product r PV (product r LV (product c UV QV)) i j.
Proof.
  intros E ops good v SO A r c AV P L U Q HA I H Hp. destruct (values_rows ops good v A r c AV HA) as [D VA]. pose proof HA as (V & HR & HC & _).
  pose proof V as (A1 & A2 & A3 & A4 & A5 & A6). pose proof H as H0. unfold factorize_full_piv_lu in H0. destruct (lu_matrix ops A) as [[[[P1 L1] U1] Q1]| | | |] eqn:Lu; try discriminate. clear H0.
  destruct (factorize_rows ops A r c V HR HC I P1 L1 U1 Q1 Lu) as (Hr & Hc & Hlu & MP & ML & MU & MQ & Hf & EL & EU & EP & EQ & FU).
  rewrite Hf in H. injection H as -> -> -> ->. rewrite HR, HC in *. set (n := Z.to_nat r) in *. set (k := Z.to_nat c) in *.
  assert (Er : r = Z.of_nat n) by lia. assert (Ec : c = Z.of_nat k) by lia. assert (I' : in_i64 (r * r)) by (i64; nia).
  assert (Hpiv : pivots ops v n U1).
  { intros i Hi. apply (Hp (Z.of_nat i)); try lia. apply FU; lia. }
  destruct (lu_ok ops good v SO n k _ P1 L1 U1 Q1 ltac:(lia) ltac:(lia) D Hlu Hpiv) as [HP HQ DL DU HL HU Heq _].
  exists (perm_value (p_ P1)), (fun i j => vel ops v L1 (Z.to_nat i) (Z.to_nat j)), (fun i j => vel ops v U1 (Z.to_nat i) (Z.to_nat j)), (perm_value (p_ Q1)).
  rewrite Er, Ec in *. split; [|split; [|split; [|split; [|split; [|split; [|split; [|split]]]]]]].
  - eapply has_values_ext; [|apply (make_values ops good v n n (map (unit_row ops n) (p_ P1))); auto; eapply perm_dims; eauto].
    intros i j [Hi Hj]. cbv beta. rewrite (perm_vel ops good v SO n) by (auto; lia). now rewrite !Z2Nat.id by lia.
  - now apply (make_values ops good v n n).
  - now apply (make_values ops good v n k).
  - eapply has_values_ext; [|apply (make_values ops good v k k (map (unit_row ops k) (p_ Q1))); auto; eapply perm_dims; eauto].
    intros i j [Hi Hj]. cbv beta. rewrite (perm_vel ops good v SO k) by (auto; lia). now rewrite !Z2Nat.id by lia.
  - now apply perm_value_ok.
  - destruct HL as [HL1 HL2]. split; [intros i Hi; apply HL1; lia|]. intros i j [Hi Hj] Hij. apply HL2. lia.
  - intros i j [Hi Hj] Hij. apply HU; lia.
  - now apply perm_value_ok.
  - intros i j [Hi Hj]. unfold product. rewrite ?Nat2Z.id, sum_n_N. set (i0 := Z.to_nat i). set (j0 := Z.to_nat j).
    destruct (perm_find k (p_ Q1) j0 HQ ltac:(lia)) as [R1 R2]. set (rr := find_index j0 (p_ Q1)) in *.
    pose proof (perm_nth n (p_ P1) i0 HP ltac:(lia)) as Hpi.
    rewrite (sumN_single n (nth i0 (p_ P1) O)); auto.
    + unfold perm_value at 1. rewrite Nat2Z.id. fold i0. rewrite Nat.eqb_refl, Rmult_1_l, sum_n_N. rewrite ?Nat2Z.id.
      replace (AV i j) with (vel ops v (chunks n k (m_data A)) i0 (nth rr (p_ Q1) O)).
      * rewrite Heq by lia. apply sumN_ext. intros l Hl. rewrite ?Nat2Z.id. f_equal. rewrite sum_n_N, ?Nat2Z.id. rewrite (sumN_single k rr); auto.
        -- unfold perm_value. rewrite ?Nat2Z.id. fold j0. rewrite R2, Nat.eqb_refl. lra.
        -- intros x Hx Nx. unfold perm_value. rewrite Nat2Z.id. fold j0. destruct (Nat.eqb_spec (nth x (p_ Q1) O) j0) as [Ex|]; [|lra].
           exfalso. apply Nx. apply (perm_inj k (p_ Q1)); auto. congruence.
      * rewrite R2, VA by lia. f_equal; lia.
    + intros x Hx Nx. unfold perm_value at 1. rewrite Nat2Z.id. fold i0. destruct (Nat.eqb_spec (nth i0 (p_ P1) O) x) as [Ex|]; [congruence|lra].
Qed.
Print Assumptions C22_factorisation.
(** The first pivot is in the second row and the second column. *)
Example C22_factorisation_ex :
  let A := mk_matrix 3 4 [0; 0; 0; 0; 0; 1; 2; 3; 5; 4; 0; 1] in
  factorize_full_piv_lu z_ops A = Ok (mk_matrix 3 3 [0; 0; 1; 1; 0; 0; 0; 1; 0], mk_matrix 3 3 [1; 0; 0; 4; 1; 0; 0; 0; 1],
    mk_matrix 3 4 [1; 0; 2; 3; 0; 5; -8; -11; 0; 0; 0; 0], mk_matrix 4 4 [0; 1; 0; 0; 1; 0; 0; 0; 0; 0; 1; 0; 0; 0; 0; 1]) /\
  (let* UQ := mat_mul z_ops (mk_matrix 3 4 [1; 0; 2; 3; 0; 5; -8; -11; 0; 0; 0; 0]) (mk_matrix 4 4 [0; 1; 0; 0; 1; 0; 0; 0; 0; 0; 1; 0; 0; 0; 0; 1]) in
   let* LUQ := mat_mul z_ops (mk_matrix 3 3 [1; 0; 0; 4; 1; 0; 0; 0; 1]) UQ in
   mat_mul z_ops (mk_matrix 3 3 [0; 0; 1; 1; 0; 0; 0; 1; 0]) LUQ) = Ok A.
Proof. split; vm_compute; reflexivity. Qed.

(** At least one row and no more rows than columns are needed, and then the factorisation succeeds when the scalar operations do: no index goes out
    of bounds and no internal check fails. *)
Theorem C22_total : forall E (ops : mat_ops E) A, valid A ->
  (total_ops ops -> 1 <= m_rows A -> m_rows A <= m_cols A -> in_i64 (m_cols A * m_cols A) -> exists P L U Q, factorize_full_piv_lu ops A = Ok (P, L, U, Q)) /\
  (m_cols A < m_rows A \/ m_rows A = 0 -> factorize_full_piv_lu ops A = Throws).
Proof.
  intros E ops A V. split.
  - intros T H1 H2 I. pose proof V as (A1 & A2 & A3 & A4 & A5 & A6).
    assert (Sh : shape (Z.to_nat (m_rows A)) (Z.to_nat (m_cols A)) (chunks (Z.to_nat (m_rows A)) (Z.to_nat (m_cols A)) (m_data A))) by (apply rows_shape; nia).
    destruct (lu_total ops T (Z.to_nat (m_rows A)) (Z.to_nat (m_cols A)) _ ltac:(lia) ltac:(lia) Sh) as (P & L & U & Q & Hlu & _).
    assert (Lu : lu_matrix ops A = Ok (P, L, U, Q)). { unfold lu_matrix. destruct (Z.ltb_spec (m_cols A) (m_rows A)); [lia|auto]. }
    destruct (factorize_rows ops A _ _ V eq_refl eq_refl I P L U Q Lu) as (_ & _ & _ & MP & ML & MU & MQ & Hf & _). eauto.
  - intros H. unfold factorize_full_piv_lu, lu_matrix. destruct (Z.ltb_spec (m_cols A) (m_rows A)); auto. destruct H as [H|H]; [lia|]. now rewrite H.
Qed.
Print Assumptions C22_total.
Example C22_total_ex : factorize_full_piv_lu z_ops (mk_matrix 2 1 [1; 2]) = Throws /\ factorize_full_piv_lu z_ops (mk_matrix 0 0 []) = Throws /\
  factorize_full_piv_lu z_ops (mk_matrix 2 2 [0; 0; 0; 0]) = Ok (mk_matrix 2 2 [1; 0; 0; 1], mk_matrix 2 2 [1; 0; 0; 1], mk_matrix 2 2 [0; 0; 0; 0], mk_matrix 2 2 [1; 0; 0; 1]).
Proof. repeat split; vm_compute; reflexivity. Qed.

(** ** C23 *)
Theorem C23_determinant : forall E (ops : mat_ops E) good v, sound_ops ops good v ->
  forall A n AV e, has_values good v A n n AV -> determinant ops A = Ok e ->
  (4 <= n -> forall P L U Q, factorize_full_piv_lu ops A = Ok (P, L, U, Q) -> pivots_ok ops v n U) ->
  1 <= n /\ good e /\ v e = det (Z.to_nat n) (fun i j => AV (Z.of_nat i) (Z.of_nat j)).
Proof.
  intros E ops good v SO A n AV e HA H Hp. pose proof HA as (V & HR & HC & F). pose proof V as (A1 & A2 & A3 & A4 & A5 & A6).
  unfold determinant in H. rewrite HR, HC in *. rewrite Z.eqb_refl in H. cbn [negb] in H.
  assert (G : forall i j x, in_range n n i j -> get_unchecked A i j = Ok x -> good x /\ v x = AV i j).
  { intros i j x Hij Hx. destruct (F i j Hij) as (y & Hy & Gy & Vy). destruct (unchecked_ok A i j V) as (x' & Hx' & Ex'); [now rewrite HR, HC|].
    assert (x = y) by congruence. subst. auto. }
  Ltac open H := repeat match type of H with
    | bind ?m _ = Ok _ => let x := fresh "x" in let Q := fresh "Q" in destruct m as [x| | | |] eqn:Q; try discriminate; cbn [bind] in H
    end.
  Ltac vals SO G := repeat match goal with
    | Q : get_unchecked _ ?i ?j = Ok ?x |- _ => let K := fresh "K" in let W := fresh "W" in apply G in Q; [|split; lia]; destruct Q as [K W]
    | Q : op_mul _ _ _ = Ok ?x |- _ => let K := fresh "K" in let W := fresh "W" in apply (so_mul _ _ _ SO) in Q; [destruct Q as [K W]|assumption|assumption]
    | Q : op_sub _ _ _ = Ok ?x |- _ => let K := fresh "K" in let W := fresh "W" in apply (so_sub _ _ _ SO) in Q; [destruct Q as [K W]|assumption|assumption]
    | Q : op_add _ _ _ = Ok ?x |- _ => let K := fresh "K" in let W := fresh "W" in apply (so_add _ _ _ SO) in Q; [destruct Q as [K W]|assumption|assumption]
    end.
  destruct (Z.eqb_spec n 1) as [->|N1].
  { split; [lia|]. apply G in H; [|split; lia]. destruct H as [K W]. split; auto. rewrite W. change (Z.to_nat 1) with 1%nat. cbn [det sumN pow]. change (Z.of_nat 0) with 0. lra. }
  destruct (Z.eqb_spec n 2) as [->|N2].
  { split; [lia|]. open H. vals SO G. split; auto. change (Z.to_nat 2) with 2%nat. cbn [det sumN pow]. unfold skip. cbn [Nat.ltb Nat.leb].
    change (Z.of_nat 0) with 0. change (Z.of_nat 1) with 1. repeat match goal with W : v _ = _ |- _ => rewrite W; clear W end. ring. }
  destruct (Z.eqb_spec n 3) as [->|N3].
  { split; [lia|]. open H. 
    repeat match goal with Q : bind _ _ = Ok _ |- _ => open Q end. vals SO G. split; auto. change (Z.to_nat 3) with 3%nat. cbn [det sumN pow]. unfold skip. cbn [Nat.ltb Nat.leb].
    change (Z.of_nat 0) with 0. change (Z.of_nat 1) with 1. change (Z.of_nat 2) with 2. repeat match goal with W : v _ = _ |- _ => rewrite W; clear W end. ring. }
  destruct (lu_matrix ops A) as [[[[P L] U] Q]| | | |] eqn:Lu; try discriminate. cbn [bind] in H.
  destruct (factorize_rows ops A n n V HR HC A6 P L U Q Lu) as (Hr & _ & Hlu & MP & ML & MU & MQ & Hf & _ & _ & _ & _ & FU).
  assert (N4 : 4 <= n) by lia. specialize (Hp N4 _ _ _ _ Hf). destruct (values_rows ops good v A n n AV HA) as [D VA]. set (k := Z.to_nat n) in *.
  assert (Hpiv : pivots ops v k U). { intros i Hi. apply (Hp (Z.of_nat i)); try lia. apply FU; lia. }
  destruct (lu_ok ops good v SO k k _ P L U Q ltac:(lia) ltac:(lia) D Hlu Hpiv) as [_ _ _ DU _ _ _ Hdet].
  split; auto. rewrite (det_ext k _ (vel ops v (chunks k k (m_data A)))) by (intros; symmetry; apply VA; auto). rewrite Hdet by auto.
  assert (T : forall U0 (p : E) i e0, good p -> times_diagonal ops p i U0 = Ok e0 -> (forall row, In row U0 -> length row = k /\ Forall good row) -> 
    good e0 /\ v e0 = (v p * fold_right (fun x y => x * y) 1 (map (fun ij => v (nth (fst ij) (snd ij) (op_zero ops))) (combine (seq i (length U0)) U0)))%R).
  { induction U0 as [|row U0 IH]; intros p i e0 Gp He G0; cbn [times_diagonal] in He.
    - injection He as <-. cbn. split; auto. lra.
    - destruct (nth_error row i) as [u|] eqn:Nu; [|discriminate]. destruct (op_mul ops p u) as [q| | | |] eqn:M; try discriminate. cbn [bind] in He.
      assert (Gu : good u). { destruct (G0 row (or_introl eq_refl)) as [_ Gr]. rewrite Forall_forall in Gr. apply Gr. now apply nth_error_In in Nu. }
      apply (so_mul _ _ _ SO) in M; auto. destruct M as [Gq Vq]. destruct (IH q (S i) e0 Gq He) as [Ge Ve]; [intros; apply G0; now right|].
      split; auto. rewrite Ve, Vq. cbn [length seq combine map fold_right fst snd]. rewrite (nth_of _ _ _ (op_zero ops) Nu). ring. }
  pose proof DU as [LU FUr]. rewrite Forall_forall in FUr.
  assert (Gs : good (if xorb (odd_swaps P) (odd_swaps Q) then op_neg_one ops else op_one ops)) by (destruct (xorb _ _); apply SO).
  destruct (T U _ 0%nat e Gs H FUr) as [Ge Ve]. split; auto. rewrite Ve. f_equal.
  - unfold sgn. destruct (odd_swaps P), (odd_swaps Q); cbn [xorb]; rewrite ?(proj2 (so_one _ _ _ SO)), ?(proj2 (so_neg_one _ _ _ SO)); lra.
  - assert (Kp : forall l a (W : R), fold_right (fun x y => x * y)%R W (map (fun ij : nat * list E => v (nth (fst ij) (snd ij) (op_zero ops))) (combine (seq a (length l)) l)) =
      (fold_right (fun x y => x * y)%R 1%R (map (fun ij : nat * list E => v (nth (fst ij) (snd ij) (op_zero ops))) (combine (seq a (length l)) l)) * W)%R).
    { induction l as [|x l IH]; intros a W; cbn [length seq combine map fold_right fst snd]; [lra|]. rewrite IH. ring. }
    rewrite <- LU. clear - Kp. assert (K : forall U : list (list E), diag_prod ops v (length U) U = fold_right (fun x y => x * y)%R 1%R (map (fun ij : nat * list E => v (nth (fst ij) (snd ij) (op_zero ops))) (combine (seq 0 (length U)) U))); [|now rewrite K].
    intros U0. induction U0 as [|row U0 IH] using rev_ind; [reflexivity|]. rewrite app_length. cbn [length]. rewrite Nat.add_1_r. cbn [diag_prod].
    rewrite seq_S. cbn [plus]. assert (Cb : combine (seq 0 (length U0) ++ [length U0]) (U0 ++ [row]) = combine (seq 0 (length U0)) U0 ++ [(length U0, row)]).
    { assert (Cg : forall (A B : Type) (l1 : list A) (l2 : list B) x y, length l1 = length l2 -> combine (l1 ++ [x]) (l2 ++ [y]) = combine l1 l2 ++ [(x, y)]).
      { intros A0 B0. induction l1 as [|a0 l1 IHl]; intros [|b0 l2] x y Hl; cbn [length] in Hl; try lia; cbn; auto. f_equal. apply IHl. lia. }
      apply Cg. now rewrite seq_length. }
    rewrite Cb, map_app, fold_right_app. cbn [map fold_right fst snd]. rewrite Kp, Rmult_1_r. f_equal.
    + rewrite <- IH. assert (Dg : forall n, (n <= length U0)%nat -> diag_prod ops v n (U0 ++ [row]) = diag_prod ops v n U0).
      { induction n as [|n IHn]; intros Hn; cbn [diag_prod]; auto. rewrite IHn by lia. f_equal. unfold vel, el. now rewrite app_nth1 by lia. }
      now apply Dg.
    + unfold vel, el. rewrite app_nth2 by lia. now rewrite Nat.sub_diag.
Qed.
Print Assumptions C23_determinant.
(** A permutation of rows and columns is needed here. *)
Example C23_determinant_ex :
  determinant z_ops (mk_matrix 4 4 [0; 0; -1; 3; 0; -1; 0; -1; 1; -1; 0; 0; 0; 0; 3; 0]) = Ok (-9) /\
  determinant z_ops (mk_matrix 3 3 [2; 0; 1; 1; 3; 2; 1; 1; 1]) = Ok 0 /\
  determinant (expr_ops impl_ex 10) (mk_matrix 2 2 [vx; EInt 2; EInt 3; vy]) = Ok (EAdd [EInt (-6); EMul [vx; vy]]).
Proof. repeat split; vm_compute; reflexivity. Qed.
(** Other matrices. *)
Theorem C23_rejects : forall E (ops : mat_ops E) A, m_rows A <> m_cols A \/ m_rows A = 0 -> determinant ops A = Throws.
Proof.
  intros E ops A H. unfold determinant. destruct (Z.eqb_spec (m_rows A) (m_cols A)) as [Eq|]; auto. destruct H as [H|H]; [contradiction|]. rewrite H. cbn [negb Z.eqb].
  unfold lu_matrix. rewrite <- Eq, H. reflexivity.
Qed.
Print Assumptions C23_rejects.
Example C23_rejects_ex : determinant z_ops m23 = Throws.
Proof. reflexivity. Qed.
