(** Proofs about the LU factorisation and the determinant. *)
From Coq Require Import ZArith List Bool Reals Arith Lia Lra.
From Verif Require Import Outcome MatrixModel MatrixSpec MatrixProofs LuModel LuSpec DetProofs.
Import ListNotations.
Open Scope nat_scope.
Open Scope outcome_scope.

Lemma nth_of {A} (l : list A) i x d : nth_error l i = Some x -> nth i l d = x.
Proof. intros H. now apply nth_error_nth. Qed.
Lemma err_of {A} (l : list A) i d : i < length l -> nth_error l i = Some (nth i l d).
Proof. intros H. now apply nth_error_nth'. Qed.

(** ** Permutations *)
Lemma set_nth_length {A} (l : list A) : forall i x, length (set_nth l i x) = length l.
Proof. induction l as [|y l IH]; intros [|i] x; cbn; auto. Qed.
Lemma set_nth_nth {A} (l : list A) d : forall i x k, i < length l -> nth k (set_nth l i x) d = if Nat.eqb k i then x else nth k l d.
Proof.
  induction l as [|y l IH]; intros [|i] x k H; cbn [length] in H; try lia; destruct k as [|k]; cbn [set_nth nth Nat.eqb]; auto. apply IH. lia.
Qed.
Lemma swap_inv {A} (l : list A) i j l' d : swap_nth l i j = Ok l' -> i < length l /\ j < length l /\ length l' = length l /\
  forall k, nth k l' d = nth (if Nat.eqb k j then i else if Nat.eqb k i then j else k) l d.
Proof.
  unfold swap_nth. destruct (nth_error l i) as [x|] eqn:X; [|discriminate]. destruct (nth_error l j) as [y|] eqn:Y; [|discriminate].
  intros H. injection H as <-. assert (Hi : i < length l) by (apply nth_error_Some; congruence). assert (Hj : j < length l) by (apply nth_error_Some; congruence).
  split; auto. split; auto. split; [now rewrite !set_nth_length|]. intros k. rewrite set_nth_nth by now rewrite set_nth_length. rewrite set_nth_nth by auto.
  apply (nth_of _ _ _ d) in X, Y. destruct (Nat.eqb k j); auto. destruct (Nat.eqb k i); auto.
Qed.
Lemma swap_ok {A} (l : list A) i j : i < length l -> j < length l -> exists l', swap_nth l i j = Ok l'.
Proof.
  intros Hi Hj. unfold swap_nth. destruct (nth_error l i) eqn:X; [|now apply nth_error_None in X; lia]. destruct (nth_error l j) eqn:Y; [eauto|now apply nth_error_None in Y; lia].
Qed.

Definition is_perm (n : nat) (p : list nat) : Prop := length p = n /\ NoDup p /\ forall x, In x p -> x < n.
Lemma perm_nth n p i : is_perm n p -> i < n -> nth i p 0 < n.
Proof. intros (L & _ & H) Hi. apply H. apply nth_In. lia. Qed.
Lemma perm_inj n p i j : is_perm n p -> i < n -> j < n -> nth i p 0 = nth j p 0 -> i = j.
Proof. intros (L & D & _) Hi Hj E. rewrite (NoDup_nth p 0) in D. apply D; lia. Qed.
Lemma perm_intro n p : length p = n -> (forall i, i < n -> nth i p 0 < n) -> (forall i j, i < n -> j < n -> nth i p 0 = nth j p 0 -> i = j) -> is_perm n p.
Proof.
  intros L H1 H2. split; auto. split.
  - apply (NoDup_nth p 0). intros i j Hi Hj. apply H2; lia.
  - intros x Hx. apply (In_nth p x 0) in Hx. destruct Hx as (i & Hi & <-). apply H1. lia.
Qed.
Lemma perm_id_ok n : is_perm n (p_ (perm_id n)).
Proof.
  apply perm_intro; cbn [perm_id p_]; [apply seq_length| |].
  - intros i Hi. rewrite seq_nth by auto. lia.
  - intros i j Hi Hj. rewrite !seq_nth by auto. auto.
Qed.
Lemma find_lt x l : In x l -> find_index x l < length l /\ nth (find_index x l) l 0 = x.
Proof.
  induction l as [|y l IH]; intros H; [destruct H|]. cbn [find_index length]. destruct (Nat.eqb_spec y x) as [->|N]; [split; [lia|reflexivity]|].
  destruct IH as [H1 H2]. { destruct H; [contradiction|auto]. } split; [lia|]. exact H2.
Qed.
Lemma perm_in n p x : is_perm n p -> x < n -> In x p.
Proof.
  intros (L & D & H) Hx. assert (I : incl (seq 0 n) p); [|apply I, in_seq; lia].
  apply NoDup_length_incl; auto; [rewrite seq_length; lia|]. intros y Hy. apply in_seq. specialize (H y Hy). lia.
Qed.
Lemma perm_find n p x : is_perm n p -> x < n -> find_index x p < n /\ nth (find_index x p) p 0 = x.
Proof. intros H Hx. pose proof (perm_in n p x H Hx) as I. apply find_lt in I. destruct H as (<- & _). exact I. Qed.
Lemma find_perm n p i : is_perm n p -> i < n -> find_index (nth i p 0) p = i.
Proof. intros H Hi. destruct (perm_find n p (nth i p 0) H) as [H1 H2]; [now apply perm_nth|]. now apply (perm_inj n p). Qed.

(** A permutation with a fixed first element. *)
Definition lift (p : list nat) (i : nat) : nat := match i with O => 0 | S i => S (nth i p 0) end.
Lemma shift_nth p i : i <= length p -> nth i (0 :: map S p) 0 = lift p i.
Proof. intros H. destruct i as [|i]; cbn [nth lift]; auto. rewrite (nth_indep _ 0 (S 0)) by (rewrite map_length; lia). now rewrite map_nth. Qed.
Lemma lift_lt n p i : is_perm n p -> i < S n -> lift p i < S n.
Proof. intros H Hi. destruct i as [|i]; cbn; [lia|]. pose proof (perm_nth n p i H). lia. Qed.
Lemma lift_inj n p i j : is_perm n p -> i < S n -> j < S n -> lift p i = lift p j -> i = j.
Proof. intros H Hi Hj. destruct i as [|i], j as [|j]; cbn; intros E; auto; try lia. f_equal. apply (perm_inj n p); auto; lia. Qed.
Lemma tr_lt p i n : p < n -> i < n -> tr p i < n.
Proof. intros. unfold tr. destruct (Nat.eqb i p); [lia|]. destruct (Nat.eqb i 0); lia. Qed.
Lemma tr_tr p i : tr p (tr p i) = i.
Proof. unfold tr. eqbs; lia. Qed.
Lemma tr_inj p i j : tr p i = tr p j -> i = j.
Proof. intros H. rewrite <- (tr_tr p i), H. apply tr_tr. Qed.
Lemma tr_0 i : tr 0 i = i.
Proof. unfold tr. eqbs; lia. Qed.

Definition sgn (P : permutation) : R := if odd_swaps P then (-1)%R else 1%R.
Definition flip (p : nat) : R := match p with O => 1%R | S _ => (-1)%R end.
Lemma odd_S p n : Nat.odd (num_swaps (mk_perm p (S n))) = negb (Nat.odd n).
Proof. cbn [num_swaps]. rewrite Nat.odd_succ. now rewrite <- Nat.negb_odd. Qed.
Lemma sgn_S p q n : sgn (mk_perm p (S n)) = (- sgn (mk_perm q n))%R.
Proof. unfold sgn, odd_swaps. rewrite odd_S. cbn [num_swaps]. destruct (Nat.odd n); cbn; lra. Qed.

Lemma shift_down_ok n P row P' : is_perm n (p_ P) -> shift_down_and_swap P row = Ok P' ->
  is_perm (S n) (p_ P') /\ row < S n /\ (forall i, i < S n -> nth i (p_ P') 0 = lift (p_ P) (tr row i)) /\ sgn P' = (flip row * sgn P)%R.
Proof.
  intros HP H. unfold shift_down_and_swap in H. pose proof HP as (L & _).
  assert (K : row < S n /\ length (p_ P') = S n /\ (forall i, i < S n -> nth i (p_ P') 0 = lift (p_ P) (tr row i)) /\ sgn P' = (flip row * sgn P)%R).
  { destruct (Nat.eqb_spec row 0) as [->|N].
    - injection H as <-. cbn [p_]. split; [lia|]. split; [cbn; rewrite map_length; lia|]. split.
      + intros i Hi. rewrite tr_0. apply shift_nth. lia.
      + unfold sgn, odd_swaps. cbn [num_swaps flip]. lra.
    - destruct (negb _); [discriminate|]. destruct (swap_nth _ _ _) as [p'| | | |] eqn:Sw; try discriminate. cbn [bind] in H. injection H as <-.
      destruct (swap_inv _ _ _ _ 0 Sw) as (_ & R & L' & F). cbn [length] in R, L'. rewrite map_length in R, L'. cbn [p_]. split; [lia|]. split; [lia|]. split.
      + intros i Hi. rewrite F. replace (if i =? row then 0 else if i =? 0 then row else i) with (tr row i) by reflexivity. apply shift_nth. pose proof (tr_lt row i (S n)). lia.
      + destruct row as [|row]; [lia|]. cbn [flip]. rewrite (sgn_S _ (p_ P)). destruct P as [pp ns]. cbn [p_ num_swaps]. lra. }
  destruct K as (K1 & K2 & K3 & K4). split; [|auto]. apply perm_intro; auto.
  - intros i Hi. rewrite K3 by auto. apply (lift_lt n); auto. now apply tr_lt.
  - intros i j Hi Hj. rewrite !K3 by auto. intros E. apply (lift_inj n) in E; auto using tr_lt. now apply tr_inj in E.
Qed.
Lemma shift_right_ok n Q row Q' : is_perm n (p_ Q) -> row < S n -> shift_down_and_swap_right Q row = Ok Q' ->
  is_perm (S n) (p_ Q') /\ (forall i, i < S n -> nth i (p_ Q') 0 = tr row (lift (p_ Q) i)) /\ sgn Q' = (flip row * sgn Q)%R.
Proof.
  intros HP Hrow H. unfold shift_down_and_swap_right in H. pose proof HP as (L & _). set (p := 0 :: map S (p_ Q)) in *.
  assert (Lp : length p = S n) by (unfold p; cbn; rewrite map_length; lia).
  assert (Np : forall i, i < S n -> nth i p 0 = lift (p_ Q) i) by (intros i Hi; apply shift_nth; lia).
  assert (Pp : is_perm (S n) p).
  { apply perm_intro; auto.
    - intros i Hi. rewrite Np by auto. now apply (lift_lt n).
    - intros i j Hi Hj. rewrite !Np by auto. now apply (lift_inj n). }
  destruct (perm_find (S n) p row Pp Hrow) as [F1 F2]. set (it := find_index row p) in *.
  destruct (Nat.eqb it (length p)); [discriminate|].
  assert (K : length (p_ Q') = S n /\ (forall i, i < S n -> nth i (p_ Q') 0 = tr row (lift (p_ Q) i)) /\ sgn Q' = (flip row * sgn Q)%R).
  { destruct (Nat.eqb_spec it 0) as [E|N].
    - injection H as <-. rewrite E in F2. cbn in F2. subst row. cbn [p_]. split; auto. split.
      + intros i Hi. rewrite tr_0. auto.
      + unfold sgn, odd_swaps. cbn [num_swaps flip]. lra.
    - destruct (swap_nth _ _ _) as [p'| | | |] eqn:Sw; try discriminate. cbn [bind] in H. injection H as <-.
      destruct (swap_inv _ _ _ _ 0 Sw) as (_ & _ & L' & F). cbn [p_]. split; [lia|]. assert (Hr : row <> 0).
      { intros ->. apply N. apply (perm_inj (S n) p); auto; lia. }
      split.
      + intros i Hi. rewrite F, <- Np by auto. destruct (Nat.eqb_spec i 0) as [->|Hi0].
        * rewrite F2. unfold p. cbn [nth]. unfold tr. eqbs.
        * destruct (Nat.eqb_spec i it) as [->|Hit].
          -- rewrite F2. unfold p. cbn [nth]. unfold tr. now rewrite Nat.eqb_refl.
          -- unfold tr. destruct (Nat.eqb_spec (nth i p 0) row) as [E1|_].
             ++ exfalso. apply Hit. apply (perm_inj (S n) p); auto. congruence.
             ++ destruct (Nat.eqb_spec (nth i p 0) 0) as [E0|_]; auto. exfalso. apply Hi0. apply (perm_inj (S n) p); auto; lia.
      + destruct row as [|row]; [lia|]. cbn [flip]. rewrite (sgn_S _ (p_ Q)). destruct Q as [pp ns]. cbn [p_ num_swaps]. lra. }
  destruct K as (K1 & K2 & K3). split; [|auto]. apply perm_intro; auto.
  - intros i Hi. rewrite K2 by auto. apply tr_lt; auto. now apply (lift_lt n).
  - intros i j Hi Hj. rewrite !K2 by auto. intros E. apply tr_inj in E. now apply (lift_inj n) in E.
Qed.

Section P.
Context {E : Type}.
Variable ops : mat_ops E.
Variables (good : E -> Prop) (v : E -> R).
Hypothesis SO : sound_ops ops good v.
Notation z := (op_zero ops).

Definition el (U : list (list E)) (i j : nat) : E := nth j (nth i U []) z.
Definition vel (U : list (list E)) (i j : nat) : R := v (el U i j).
Definition dims (n c : nat) (U : list (list E)) : Prop := length U = n /\ Forall (fun row => length row = c /\ Forall good row) U.
Lemma dims_row n c U i : dims n c U -> i < n -> length (nth i U []) = c /\ Forall good (nth i U []).
Proof. intros [L F] Hi. rewrite Forall_forall in F. apply F. apply nth_In. lia. Qed.
Lemma nth_good l j : Forall good l -> j < length l -> good (nth j l z).
Proof. intros F H. rewrite Forall_forall in F. apply F. now apply nth_In. Qed.
Lemma good_nth l : (forall j, j < length l -> good (nth j l z)) -> Forall good l.
Proof. intros H. apply Forall_forall. intros x Hx. apply (In_nth l x z) in Hx. destruct Hx as (j & Hj & <-). auto. Qed.
Lemma dims_good n c U i j : dims n c U -> i < n -> j < c -> good (el U i j).
Proof. intros D Hi Hj. destruct (dims_row n c U i D Hi) as [L F]. apply nth_good; auto. lia. Qed.
Lemma dims_intro n c U : length U = n -> (forall i, i < n -> length (nth i U []) = c /\ Forall good (nth i U [])) -> dims n c U.
Proof. intros L H. split; auto. apply Forall_forall. intros x Hx. apply (In_nth U x []) in Hx. destruct Hx as (i & Hi & <-). apply H. lia. Qed.

Lemma pivot_col_some row c : find_pivot_col ops row = Some c -> c < length row /\ op_is_zero ops (nth c row z) = false.
Proof.
  revert c. induction row as [|e t IH]; intros c H; cbn [find_pivot_col] in H; [discriminate|].
  destruct (op_is_zero ops e) eqn:Z; cbn [negb] in H.
  - destruct (find_pivot_col ops t) as [k|]; [|discriminate]. injection H as <-. cbn [length nth]. destruct (IH k); auto. split; [lia|auto].
  - injection H as <-. cbn. split; [lia|auto].
Qed.
Lemma pivot_col_none row : find_pivot_col ops row = None -> forall j, j < length row -> op_is_zero ops (nth j row z) = true.
Proof.
  induction row as [|e t IH]; intros H j Hj; cbn [length] in Hj; [lia|]. cbn [find_pivot_col] in H. destruct (op_is_zero ops e) eqn:Z; cbn [negb] in H; [|discriminate].
  destruct (find_pivot_col ops t); [discriminate|]. destruct j as [|j]; auto. apply IH; auto. lia.
Qed.
Lemma pivot_some U : forall r c, find_pivot ops U = Some (r, c) -> r < length U /\ c < length (nth r U []) /\ op_is_zero ops (el U r c) = false.
Proof.
  unfold el. induction U as [|row t IH]; intros r c H; cbn [find_pivot] in H; [discriminate|]. destruct (find_pivot_col ops row) as [k|] eqn:K.
  - injection H as <- <-. apply pivot_col_some in K. cbn. split; [lia|auto].
  - destruct (find_pivot ops t) as [[r' c']|]; [|discriminate]. injection H as <- <-. destruct (IH r' c' eq_refl) as [H1 H2]. cbn. split; [lia|exact H2].
Qed.
Lemma pivot_none U n c : dims n c U -> find_pivot ops U = None -> forall i j, i < n -> j < c -> op_is_zero ops (el U i j) = true.
Proof.
  revert n. induction U as [|row t IH]; intros n [L F] H i j Hi Hj; cbn [length] in L; [lia|]. cbn [find_pivot] in H.
  destruct (find_pivot_col ops row) eqn:K; [discriminate|]. destruct (find_pivot ops t) as [[? ?]|] eqn:T; [discriminate|].
  pose proof (Forall_inv F) as [Lr _]. apply Forall_inv_tail in F. destruct i as [|i].
  - unfold el. cbn [nth]. apply pivot_col_none; auto. lia.
  - apply (IH (pred n)); auto; [split; [lia|auto]|lia].
Qed.

Lemma split_ok n c U cs rows : dims n (S c) U -> split_rows U = Ok (cs, rows) ->
  length cs = n /\ Forall good cs /\ dims n c rows /\ forall i, i < n -> nth i U [] = nth i cs z :: nth i rows [].
Proof.
  revert n cs rows. induction U as [|row U IH]; intros n cs rows [L F] H; cbn [length split_rows] in *.
  - injection H as <- <-. subst n. split; auto. split; auto. split; [split; auto|]. intros; lia.
  - pose proof (Forall_inv F) as [Lr Gr]. apply Forall_inv_tail in F. destruct row as [|x row]; [discriminate|].
    destruct (split_rows U) as [[cs' rows']| | | |] eqn:Sp; try discriminate. cbn [bind fst snd] in H. injection H as <- <-.
    destruct (IH (pred n) cs' rows') as (H1 & H2 & [H3 H4] & H5); [split; [lia|auto]|auto|]. cbn [length] in Lr.
    pose proof (Forall_inv Gr). apply Forall_inv_tail in Gr. split; [cbn; lia|]. split; auto. split; [split; [cbn; lia|constructor; auto]|].
    intros [|i] Hi; cbn [nth]; auto. apply H5. lia.
Qed.

Section Elim.
Variable pivot : E.
Hypothesis Gp : good pivot.
Hypothesis Np : v pivot <> 0%R.
Lemma eliminate_ok c : good c -> forall r_t row row', Forall good r_t -> Forall good row -> length r_t = length row -> eliminate ops pivot c r_t row = Ok row' ->
  length row' = length row /\ Forall good row' /\ forall j, j < length row -> v (nth j row' z) = (v (nth j row z) - v c * v (nth j r_t z) / v pivot)%R.
Proof.
  intros Gc. induction r_t as [|r r_t IH]; intros [|u row] row' Gr Gu L H; cbn [length] in L; try lia; cbn [eliminate] in H.
  - injection H as <-. split; auto. split; auto. cbn. intros; lia.
  - pose proof (Forall_inv Gr). apply Forall_inv_tail in Gr. pose proof (Forall_inv Gu). apply Forall_inv_tail in Gu.
    destruct (op_mul ops c r) as [cr| | | |] eqn:M; try discriminate. cbn [bind] in H. destruct (op_div ops cr pivot) as [q| | | |] eqn:D; try discriminate. cbn [bind] in H.
    destruct (op_sub ops u q) as [u'| | | |] eqn:Sb; try discriminate. cbn [bind] in H. destruct (eliminate ops pivot c r_t row) as [t| | | |] eqn:T; try discriminate.
    cbn [bind] in H. injection H as <-. apply (so_mul _ _ _ SO) in M; auto. destruct M as [M1 M2]. apply (so_div _ _ _ SO) in D; auto. destruct D as [D1 D2].
    apply (so_sub _ _ _ SO) in Sb; auto. destruct Sb as [S1 S2]. destruct (IH row t) as (I1 & I2 & I3); auto.
    split; [cbn; lia|]. split; auto. intros [|j] Hj; cbn [nth length] in *; [congruence|]. apply I3. lia.
Qed.
Lemma eliminate_rows_ok m r_t : Forall good r_t -> length r_t = m -> forall cs rows rows' n, Forall good cs -> length cs = n -> dims n m rows ->
  eliminate_rows ops pivot r_t cs rows = Ok rows' ->
  dims n m rows' /\ forall i j, i < n -> j < m -> vel rows' i j = (vel rows i j - v (nth i cs z) * v (nth j r_t z) / v pivot)%R.
Proof.
  intros Gr Lr. induction cs as [|c cs IH]; intros [|row rows] rows' n Gc Lc [Ld Fd] H; cbn [length] in *; try lia; cbn [eliminate_rows] in H.
  - injection H as <-. split; [split; auto|]. intros; lia.
  - pose proof (Forall_inv Gc). apply Forall_inv_tail in Gc. pose proof (Forall_inv Fd) as [Lrow Grow]. apply Forall_inv_tail in Fd.
    destruct (eliminate ops pivot c r_t row) as [row'| | | |] eqn:E1; try discriminate. cbn [bind] in H.
    destruct (eliminate_rows ops pivot r_t cs rows) as [t| | | |] eqn:T; try discriminate. cbn [bind] in H. injection H as <-.
    apply eliminate_ok in E1; auto; [|lia]. destruct E1 as (A1 & A2 & A3). destruct (IH rows t (pred n)) as [[B1 B2] B3]; auto; [lia|split; [lia|auto]|].
    split; [split; [cbn; lia|constructor; auto; split; [lia|auto]]|]. intros [|i] j Hi Hj; unfold vel, el; cbn [nth]; [apply A3; lia|]. apply B3; lia.
Qed.
Lemma lower_ok n P c l : is_perm n (p_ P) -> length c = n -> Forall good c -> lower_column ops P c pivot = Ok l ->
  length l = n /\ Forall good l /\ forall i, i < n -> v (nth i l z) = (v (nth (find_index i (p_ P)) c z) / v pivot)%R.
Proof.
  intros HP L G H. unfold lower_column in H. apply each_inv in H. destruct H as [L' F]. rewrite seq_length in L'.
  assert (K : forall i, i < n -> good (nth i l z) /\ v (nth i l z) = (v (nth (find_index i (p_ P)) c z) / v pivot)%R).
  { intros i Hi. destruct (F i i) as (y & Ny & Hy). { rewrite (err_of _ _ 0) by (rewrite seq_length; lia). now rewrite seq_nth by lia. }
    apply (nth_of _ _ _ z) in Ny. rewrite Ny. unfold permuted_row_transposed in Hy. destruct (perm_find n (p_ P) i HP Hi) as [F1 _].
    rewrite (err_of c (find_index i (p_ P)) z) in Hy by lia. apply (so_div _ _ _ SO) in Hy; auto. apply nth_good; auto; lia. }
  split; [lia|]. split; [|intros; now apply K]. apply good_nth. intros j Hj. apply K. lia.
Qed.
End Elim.
Lemma permute_ok n Q r_t r : is_perm n (p_ Q) -> length r_t = n -> Forall good r_t -> permute_row Q r_t = Ok r ->
  length r = n /\ Forall good r /\ forall j, j < n -> nth j r z = nth (nth j (p_ Q) 0) r_t z.
Proof.
  intros HQ L G H. unfold permute_row in H. apply each_inv in H. destruct H as [L' F]. rewrite seq_length in L'.
  assert (K : forall j, j < n -> nth j r z = nth (nth j (p_ Q) 0) r_t z).
  { intros j Hj. destruct (F j j) as (y & Ny & Hy). { rewrite (err_of _ _ 0) by (rewrite seq_length; lia). now rewrite seq_nth by lia. }
    apply (nth_of _ _ _ z) in Ny. rewrite Ny. unfold permuted_row in Hy. pose proof HQ as (LQ & _). rewrite (err_of (p_ Q) j 0) in Hy by lia. cbn [bind] in Hy.
    rewrite (err_of r_t _ z) in Hy by (pose proof (perm_nth n (p_ Q) j HQ Hj); lia). congruence. }
  split; [lia|]. split; auto. apply good_nth. intros j Hj. rewrite K by lia. apply nth_good; auto. pose proof (perm_nth n (p_ Q) j HQ). lia.
Qed.

Lemma unit_row_nth n i j : j < n -> nth j (unit_row ops n i) z = if Nat.eqb i j then op_one ops else z.
Proof.
  intros H. unfold unit_row. set (f := fun j => if Nat.eqb i j then op_one ops else z).
  rewrite (nth_indep _ z (f 0)) by (rewrite map_length, seq_length; lia). rewrite map_nth. now rewrite seq_nth.
Qed.
Lemma unit_row_length n i : length (unit_row ops n i) = n.
Proof. unfold unit_row. now rewrite map_length, seq_length. Qed.
Lemma unit_row_good n i : Forall good (unit_row ops n i).
Proof.
  apply good_nth. intros j Hj. rewrite unit_row_length in Hj. rewrite unit_row_nth by auto. destruct (Nat.eqb i j); apply SO.
Qed.
Lemma unit_rows_nth n i : i < n -> nth i (unit_rows ops n) [] = unit_row ops n i.
Proof.
  intros H. unfold unit_rows. rewrite (nth_indep _ [] (unit_row ops n 0)) by (rewrite map_length, seq_length; lia). rewrite map_nth. now rewrite seq_nth.
Qed.

(** ** The factorisation *)
Definition lower_unit n L := (forall i, i < n -> vel L i i = 1%R) /\ forall i j, i < j < n -> vel L i j = 0%R.
Definition upper_tri n c U := forall i j, j < i < n -> j < c -> vel U i j = 0%R.
Definition pivots n U := forall i, S i < n -> op_is_zero ops (el U i i) = true \/ v (el U i i) <> 0%R.
Fixpoint diag_prod (n : nat) (U : list (list E)) : R := match n with O => 1%R | S k => (diag_prod k U * vel U k k)%R end.
Lemma diag_prod_first n U : forall u r U', U = (u :: r) :: map (cons z) U' -> length U' = n -> diag_prod (S n) U = (v u * diag_prod n U')%R.
Proof.
  intros u r U' -> L. assert (H : forall k, k <= n -> diag_prod (S k) ((u :: r) :: map (cons z) U') = (v u * diag_prod k U')%R).
  { induction k as [|k IH]; intros Hk. { cbn. unfold vel, el. cbn. lra. }
    change (diag_prod (S (S k)) ((u :: r) :: map (cons z) U')) with (diag_prod (S k) ((u :: r) :: map (cons z) U') * vel ((u :: r) :: map (cons z) U') (S k) (S k))%R.
    rewrite IH by lia. cbn [diag_prod]. replace (vel ((u :: r) :: map (cons z) U') (S k) (S k)) with (vel U' k k); [ring|].
    unfold vel, el. cbn [nth]. rewrite (nth_indep (map (cons z) U') [] (z :: [])) by (rewrite map_length; lia). rewrite map_nth. reflexivity. }
  now apply H.
Qed.

Record lu_spec (n c : nat) (U : list (list E)) (P : permutation) (L U' : list (list E)) (Q : permutation) : Prop := {
  ls_P : is_perm n (p_ P); ls_Q : is_perm c (p_ Q); ls_dL : dims n n L; ls_dU : dims n c U';
  ls_L : lower_unit n L; ls_U : upper_tri n c U';
  ls_eq : forall i r, i < n -> r < c -> vel U i (nth r (p_ Q) 0) = sumN n (fun l => (vel L (nth i (p_ P) O) l * vel U' l r)%R);
  ls_det : n = c -> det n (vel U) = (sgn P * sgn Q * diag_prod n U')%R }.

Lemma v_zero : v z = 0%R. Proof. apply SO. Qed.
Lemma v_one : v (op_one ops) = 1%R. Proof. apply SO. Qed.

Lemma id_nth n i : i < n -> nth i (p_ (perm_id n)) 0 = i.
Proof. intros H. cbn. now rewrite seq_nth. Qed.
Lemma lu_base c U : 1 <= c -> dims 1 c U -> lu_spec 1 c U (perm_id 1) [[op_one ops]] U (perm_id c).
Proof.
  intros Hc D. split; auto using perm_id_ok.
  - split; auto. repeat constructor. apply SO.
  - split; [|intros; lia]. intros i Hi. replace i with 0 by lia. unfold vel, el. cbn. apply v_one.
  - intros i j Hi. lia.
  - intros i r Hi Hr. replace i with 0 by lia. rewrite !id_nth by lia. cbn [sumN]. unfold vel at 2, el. cbn [nth]. rewrite v_one. lra.
  - intros <-. cbn [det sumN diag_prod pow]. unfold sgn. cbn. lra.
Qed.
Lemma lu_none n c U : 1 <= n -> n <= c -> dims n c U -> find_pivot ops U = None -> lu_spec n c U (perm_id n) (unit_rows ops n) U (perm_id c).
Proof.
  intros Hn Hc D F. assert (Z : forall i j, i < n -> j < c -> vel U i j = 0%R).
  { intros i j Hi Hj. apply (so_is_zero _ _ _ SO); [now apply (dims_good n c)|]. now apply (pivot_none U n c). }
  assert (Un : forall i j, i < n -> j < n -> vel (unit_rows ops n) i j = if Nat.eqb i j then 1%R else 0%R).
  { intros i j Hi Hj. unfold vel, el. rewrite unit_rows_nth, unit_row_nth by auto. destruct (Nat.eqb i j); [apply v_one|apply v_zero]. }
  split; auto using perm_id_ok.
  - apply dims_intro; [unfold unit_rows; now rewrite map_length, seq_length|]. intros i Hi. rewrite unit_rows_nth by auto. split; [apply unit_row_length|apply unit_row_good].
  - split; [intros i Hi; rewrite Un, Nat.eqb_refl by auto; auto|]. intros i j Hij. rewrite Un by lia. destruct (Nat.eqb_spec i j); [lia|auto].
  - intros i j Hi Hj. apply Z; lia.
  - intros i r Hi Hr. rewrite !id_nth by auto. rewrite Z by auto. symmetry. apply sumN_zero. intros l Hl. rewrite (Z l) by auto. lra.
  - intros <-. rewrite (det_zero_row n (vel U) 0) by (auto; lia). destruct n as [|n]; [lia|]. cbn [diag_prod]. rewrite (Z n n) by lia. lra.
Qed.

(** The step: [B] is the matrix with the pivot moved to the top left. *)
Lemma lu_step m c B pivot r_t rest cs inner C P L U Q l r :
  B = (pivot :: r_t) :: rest -> dims (S m) (S c) B -> v pivot <> 0%R -> split_rows rest = Ok (cs, inner) ->
  eliminate_rows ops pivot r_t cs inner = Ok C -> (dims m c C -> lu_spec m c C P L U Q) ->
  lower_column ops P cs pivot = Ok l -> permute_row Q r_t = Ok r ->
  let L' := (op_one ops :: repeat z m) :: map (fun xr => fst xr :: snd xr) (combine l L) in
  let U' := (pivot :: r) :: map (cons z) U in
  is_perm m (p_ P) /\ is_perm c (p_ Q) /\ dims (S m) (S m) L' /\ dims (S m) (S c) U' /\ lower_unit (S m) L' /\ upper_tri (S m) (S c) U' /\
  (forall i r, i < S m -> r < S c -> vel B i (lift (p_ Q) r) = sumN (S m) (fun l => (vel L' (lift (p_ P) i) l * vel U' l r)%R)) /\
  (m = c -> det (S m) (vel B) = (sgn P * sgn Q * diag_prod (S m) U')%R).
Proof.
  intros EB [LB FB] Np Sp El IH Lo Pe L' U'. subst B. pose proof (Forall_inv FB) as [Lr Gr]. apply Forall_inv_tail in FB. cbn [length] in LB, Lr.
  pose proof (Forall_inv Gr) as Gp. apply Forall_inv_tail in Gr. assert (Dr : dims m (S c) rest) by (split; [lia|auto]).
  destruct (split_ok m c rest cs inner Dr Sp) as (Lc & Gc & Di & Ni).
  destruct (eliminate_rows_ok pivot Gp Np c r_t Gr ltac:(lia) cs inner C m Gc Lc Di El) as [DC VC].
  destruct (IH DC) as [HP HQ DL DU HL HU Heq Hdet]. destruct (lower_ok pivot Gp Np m P cs l HP Lc Gc Lo) as (Ll & Gl & Vl).
  destruct (permute_ok c Q r_t r HQ ltac:(lia) Gr Pe) as (Lr' & Gr' & Vr). pose proof DL as [LL _]. pose proof DU as [LU _].
  assert (L0 : forall j, nth j (nth 0 L' []) z = match j with O => op_one ops | S _ => z end).
  { intros [|j]; cbn [L' nth]; auto. destruct (Nat.lt_ge_cases j m); [now rewrite nth_repeat|]. apply nth_overflow. now rewrite repeat_length. }
  assert (LS : forall i, i < m -> nth (S i) L' [] = nth i l z :: nth i L []).
  { intros i Hi. cbn [L' nth]. set (f := fun xr : E * list E => fst xr :: snd xr). rewrite (nth_indep _ [] (f (z, []))) by (rewrite map_length, combine_length; lia).
    rewrite map_nth. rewrite combine_nth by lia. reflexivity. }
  assert (US : forall i, i < m -> nth (S i) U' [] = z :: nth i U []).
  { intros i Hi. cbn [U' nth]. rewrite (nth_indep _ [] (z :: [])) by (rewrite map_length; lia). now rewrite map_nth. }
  assert (VL00 : vel L' 0 0 = 1%R) by (unfold vel, el; rewrite L0; apply v_one).
  assert (VL0S : forall j, vel L' 0 (S j) = 0%R) by (intros; unfold vel, el; rewrite L0; apply v_zero).
  assert (VLS0 : forall i, i < m -> vel L' (S i) 0 = (v (nth (find_index i (p_ P)) cs z) / v pivot)%R) by (intros; unfold vel, el; rewrite LS by auto; cbn [nth]; auto).
  assert (VLSS : forall i j, i < m -> vel L' (S i) (S j) = vel L i j) by (intros; unfold vel, el; rewrite LS by auto; reflexivity).
  assert (VU00 : vel U' 0 0 = v pivot) by reflexivity.
  assert (VU0S : forall j, j < c -> vel U' 0 (S j) = v (nth (nth j (p_ Q) O) r_t z)) by (intros; unfold vel, el; cbn [U' nth]; rewrite Vr by auto; auto).
  assert (VUS0 : forall i, i < m -> vel U' (S i) 0 = 0%R) by (intros; unfold vel, el; rewrite US by auto; apply v_zero).
  assert (VUSS : forall i j, i < m -> vel U' (S i) (S j) = vel U i j) by (intros; unfold vel, el; rewrite US by auto; reflexivity).
  set (B := (pivot :: r_t) :: rest).
  assert (VBS0 : forall i, i < m -> vel B (S i) 0 = v (nth i cs z)) by (intros; unfold vel, el; cbn [B nth]; rewrite Ni by auto; reflexivity).
  assert (VBSS : forall i j, i < m -> vel B (S i) (S j) = vel inner i j) by (intros; unfold vel, el; cbn [B nth]; rewrite Ni by auto; reflexivity).
  split; auto. split; auto. split; [|split; [|split; [|split; [|split]]]].
  - apply dims_intro. { cbn [L' length]. rewrite map_length, combine_length. lia. } intros [|i] Hi.
    + cbn [L' nth length]. rewrite repeat_length. split; auto. constructor; [apply SO|]. apply Forall_forall. intros x Hx. apply repeat_spec in Hx. subst. apply SO.
    + rewrite LS by lia. destruct (dims_row m m L i DL ltac:(lia)) as [A1 A2]. split; [cbn; lia|]. constructor; auto. apply nth_good; auto. lia.
  - apply dims_intro. { cbn [U' length]. rewrite map_length. lia. } intros [|i] Hi.
    + cbn [U' nth length]. split; [lia|]. constructor; auto.
    + rewrite US by lia. destruct (dims_row m c U i DU ltac:(lia)) as [A1 A2]. split; [cbn; lia|]. constructor; auto. apply SO.
  - destruct HL as [HL1 HL2]. split.
    + intros [|i] Hi; auto. rewrite VLSS by lia. apply HL1. lia.
    + intros [|i] [|j] Hij; try lia; auto. rewrite VLSS by lia. apply HL2. lia.
  - intros [|i] [|j] Hij Hj; try lia; [apply VUS0; lia|]. rewrite VUSS by lia. apply HU; lia.
  - intros i rr Hi Hr. rewrite sumN_first. destruct i as [|i].
    + cbn [lift]. rewrite VL00. rewrite sumN_zero by (intros; rewrite VL0S; lra). destruct rr as [|rr]; cbn [lift].
      * rewrite VU00. unfold vel, el, B. cbn. lra.
      * rewrite VU0S by lia. unfold vel, el, B. cbn [nth]. lra.
    + cbn [lift]. pose proof (perm_nth m (p_ P) i HP ltac:(lia)). rewrite VLS0 by auto. rewrite (find_perm m) by (auto; lia).
      rewrite (sumN_ext m _ (fun l => vel L (nth i (p_ P) O) l * vel U' (S l) rr)%R) by (intros; rewrite VLSS by auto; auto).
      destruct rr as [|rr]; cbn [lift].
      * rewrite VU00, VBS0 by lia. rewrite sumN_zero by (intros; rewrite VUS0 by auto; lra). field. auto.
      * rewrite (sumN_ext m _ (fun l => vel L (nth i (p_ P) O) l * vel U l rr)%R) by (intros; rewrite VUSS by auto; auto).
        rewrite <- Heq by lia. rewrite VC by (try lia; apply (perm_nth c); auto; lia). rewrite VU0S, VBSS by lia. field. auto.
  - intros <-. rewrite (det_eliminate m (vel B)) by exact Np. change (vel B 0 0) with (v pivot).
    rewrite (det_ext m _ (vel C)). 2: { intros i j Hi Hj. rewrite VC, VBS0, VBSS by auto. reflexivity. }
    rewrite Hdet by auto. rewrite (diag_prod_first m U' pivot r U) by auto. ring.
Qed.

Lemma each_swap n c U U' p : dims n c U -> p < c -> each (fun row => swap_nth row p 0) U = Ok U' ->
  dims n c U' /\ forall i j, i < n -> j < c -> el U' i j = el U i (tr p j).
Proof.
  intros D Hp H. apply each_inv in H. destruct H as [L F]. pose proof D as [LD _].
  assert (K : forall i, i < n -> length (nth i U' []) = c /\ forall j, j < c -> el U' i j = el U i (tr p j)).
  { intros i Hi. destruct (F i (nth i U [])) as (y & Ny & Hy). { apply err_of. lia. } apply (nth_of _ _ _ []) in Ny. unfold el. rewrite Ny.
    destruct (swap_inv _ _ _ _ z Hy) as (_ & _ & L' & N'). destruct (dims_row n c U i D Hi) as [Lr _]. split; [lia|]. intros j Hj. rewrite N'. f_equal. unfold tr. eqbs; lia. }
  split; [|intros i j Hi Hj; now apply K]. apply dims_intro; [lia|]. intros i Hi. destruct (K i Hi) as [K1 K2]. split; auto. apply good_nth. intros j Hj.
  fold (el U' i j). rewrite K2 by lia. apply (dims_good n c); auto. apply tr_lt; lia.
Qed.
Lemma swap_rows n c U U' p : dims n c U -> p < n -> swap_nth U p 0 = Ok U' -> dims n c U' /\ forall i j, i < n -> el U' i j = el U (tr p i) j.
Proof.
  intros D Hp H. destruct (swap_inv _ _ _ _ [] H) as (_ & _ & L & N). pose proof D as [LD _].
  assert (K : forall i, nth i U' [] = nth (tr p i) U []). { intros i. rewrite N. f_equal. unfold tr. eqbs; lia. }
  split; [|intros i j Hi; unfold el; now rewrite K]. apply dims_intro; [lia|]. intros i Hi. rewrite K. apply (dims_row n c); auto. now apply tr_lt.
Qed.
Lemma det_tr_rows n p a : p < n -> det n (fun i j => a (tr p i) j) = (flip p * det n a)%R.
Proof.
  destruct p as [|p]; intros H; cbn [flip].
  - rewrite Rmult_1_l. apply det_ext. intros. now rewrite tr_0.
  - rewrite det_swap_rows by auto. lra.
Qed.
Lemma det_tr_cols n p a : p < n -> det n (fun i j => a i (tr p j)) = (flip p * det n a)%R.
Proof.
  destruct p as [|p]; intros H; cbn [flip].
  - rewrite Rmult_1_l. apply det_ext. intros. now rewrite tr_0.
  - rewrite det_swap_cols by auto. lra.
Qed.
Lemma flip_flip p : (flip p * flip p = 1)%R.
Proof. destruct p; cbn; lra. Qed.

Lemma lu_ok : forall n c U P L U' Q, 1 <= n -> n <= c -> dims n c U -> lu ops n c U = Ok (P, L, U', Q) -> pivots n U' -> lu_spec n c U P L U' Q.
Proof.
  induction n as [|n IH]; intros c U P L U' Q Hn Hc D H Hp; [lia|]. destruct n as [|m].
  - cbn [lu] in H. injection H as <- <- <- <-. now apply lu_base.
  - remember (S m) as n eqn:En. cbn [lu] in H. rewrite En in H at 1. destruct (find_pivot ops U) as [[pr pc]|] eqn:Fp.
    2: { injection H as <- <- <- <-. now apply lu_none. }
    destruct (pivot_some U pr pc Fp) as (Hpr & Hpc & Nz). pose proof D as [LD _]. destruct (dims_row (S n) c U pr D ltac:(lia)) as [Lrow _]. rewrite Lrow in Hpc. rewrite LD in Hpr.
    destruct (if Nat.eqb pr 0 then Ok U else swap_nth U pr 0) as [U1| | | |] eqn:S1; try discriminate. cbn [bind] in H.
    assert (K1 : dims (S n) c U1 /\ forall i j, i < S n -> el U1 i j = el U (tr pr i) j).
    { destruct (Nat.eqb_spec pr 0) as [->|]; [|now apply (swap_rows (S n))]. injection S1 as <-. split; auto. intros. now rewrite tr_0. }
    destruct K1 as [D1 E1].
    destruct (if Nat.eqb pc 0 then Ok U1 else each _ U1) as [B| | | |] eqn:S2; try discriminate. cbn [bind] in H.
    assert (K2 : dims (S n) c B /\ forall i j, i < S n -> j < c -> el B i j = el U1 i (tr pc j)).
    { destruct (Nat.eqb_spec pc 0) as [->|]; [|now apply (each_swap (S n) c)]. injection S2 as <-. split; auto. intros. now rewrite tr_0. }
    destruct K2 as [DB EB].
    destruct B as [|[|pivot r_t] rest]; try discriminate. set (B := (pivot :: r_t) :: rest) in *.
    destruct (split_rows rest) as [[cs inner]| | | |] eqn:Sp; try discriminate. cbn [bind fst snd] in H.
    destruct (eliminate_rows ops pivot r_t cs inner) as [C| | | |] eqn:El; try discriminate. cbn [bind] in H.
    destruct (lu ops n (pred c) C) as [[[[P1 L1] U1'] Q1]| | | |] eqn:Rec; try discriminate. cbn [bind] in H.
    destruct (negb _) eqn:G1 in H; [discriminate|]. destruct (lower_column ops P1 cs pivot) as [l| | | |] eqn:Lo; try discriminate. cbn [bind] in H.
    destruct (negb _) eqn:G2 in H; [discriminate|]. destruct (permute_row Q1 r_t) as [r| | | |] eqn:Pe; try discriminate. cbn [bind] in H.
    destruct (shift_down_and_swap P1 pr) as [P2| | | |] eqn:SP; try discriminate. cbn [bind] in H.
    destruct (shift_down_and_swap_right Q1 pc) as [Q2| | | |] eqn:SQ; try discriminate. cbn [bind] in H.
    injection H as <- <- <- <-. assert (Hc' : c = S (pred c)) by lia. assert (DBc : dims (S n) (S (pred c)) B) by now rewrite <- Hc'.
    assert (EB0 : forall i j, i < S n -> j < c -> vel B i j = vel U (tr pr i) (tr pc j)).
    { intros i j Hi Hj. unfold vel. rewrite EB, E1 by auto. reflexivity. }
    assert (Np : v pivot <> 0%R).
    { destruct (Hp 0 ltac:(lia)) as [Z|Z]; auto. exfalso. change (el B 0 0 = pivot) with (pivot = pivot) in *.
      assert (Z' : op_is_zero ops (el B 0 0) = true) by exact Z. rewrite EB, E1 in Z' by lia. unfold tr in Z'.
      rewrite !Nat.eqb_refl in Z'. destruct (Nat.eqb_spec 0 pr) as [<-|], (Nat.eqb_spec 0 pc) as [<-|]; congruence. }
    assert (Hp' : pivots n U1').
    { intros i Hi. destruct (Hp (S i) ltac:(lia)) as [Z|Z]; unfold el in Z; cbn [nth] in Z.
      - destruct (Nat.lt_ge_cases i (length U1')) as [Li|Li].
        + rewrite (nth_indep _ [] (z :: [])) in Z by (rewrite map_length; lia). rewrite map_nth in Z. left. exact Z.
        + left. unfold el. rewrite (nth_overflow U1') by auto. rewrite (nth_overflow (map (cons z) U1')) in Z by (rewrite map_length; lia). destruct i; exact Z.
      - right. destruct (Nat.lt_ge_cases i (length U1')) as [Li|Li].
        + rewrite (nth_indep _ [] (z :: [])) in Z by (rewrite map_length; lia). rewrite map_nth in Z. exact Z.
        + rewrite (nth_overflow (map (cons z) U1')) in Z by (rewrite map_length; lia). exfalso. apply Z. cbn. apply v_zero. }
    destruct (lu_step n (pred c) B pivot r_t rest cs inner C P1 L1 U1' Q1 l r eq_refl DBc Np Sp El) as (HP & HQ & DL & DU & HL & HU & Heq & Hdet); auto.
    { intros DC. apply IH; auto; lia. }
    destruct (shift_down_ok n P1 pr P2 HP SP) as (HP2 & _ & NP2 & SgP). destruct (shift_right_ok (pred c) Q1 pc Q2 HQ ltac:(lia) SQ) as (HQ2 & NQ2 & SgQ).
    rewrite <- Hc' in *. split; auto.
    + intros i rr Hi Hr. rewrite NP2, NQ2 by auto. rewrite <- Heq by (auto using tr_lt; lia). pose proof (lift_lt (pred c) (p_ Q1) rr HQ ltac:(lia)).
      rewrite EB0 by (auto using tr_lt; lia).
      now rewrite tr_tr.
    + intros <-. rewrite SgP, SgQ. replace (flip pr * sgn P1 * (flip pc * sgn Q1) * diag_prod (S n) ((pivot :: r) :: map (cons z) U1'))%R
        with (flip pr * (flip pc * (sgn P1 * sgn Q1 * diag_prod (S n) ((pivot :: r) :: map (cons z) U1'))))%R by ring.
      rewrite <- Hdet by lia. rewrite (det_ext (S n) (vel B) (fun i j => vel U (tr pr i) (tr pc j))) by (intros; apply EB0; auto).
      rewrite (det_tr_cols (S n) pc (fun i j => vel U (tr pr i) j)) by auto. rewrite (det_tr_rows (S n) pr (vel U)) by auto.
      rewrite <- Rmult_assoc, (Rmult_comm (flip pr)). rewrite Rmult_assoc. rewrite <- (Rmult_assoc (flip pr) (flip pc)), (Rmult_comm (flip pr) (flip pc)), Rmult_assoc.
      rewrite <- (Rmult_assoc (flip pr)), flip_flip, Rmult_1_l. rewrite <- Rmult_assoc, flip_flip. lra.
Qed.
End P.
