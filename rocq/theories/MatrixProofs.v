(** Proofs about matrices. *)
From Coq Require Import ZArith List Bool Reals Lia Lra.
From Verif Require Import Outcome MatrixModel MatrixSpec.
Import ListNotations.
Open Scope Z_scope.
Open Scope outcome_scope.

Ltac i64 := unfold in_i64, INT64_MIN, INT64_MAX in *.
Lemma mach_ok z : in_i64 z -> mach z = Ok z.
Proof. intros H. unfold mach, in_i64b. i64. destruct (Z.leb_spec (-9223372036854775808) z), (Z.leb_spec z 9223372036854775807); cbn; auto; lia. Qed.
Lemma mach_inv z y : mach z = Ok y -> y = z /\ in_i64 z.
Proof.
  unfold mach, in_i64b. destruct (Z.leb_spec INT64_MIN z), (Z.leb_spec z INT64_MAX); cbn; try discriminate. intros H1; injection H1 as <-. split; auto. split; auto.
Qed.

Lemma upto_length n : length (upto n) = Z.to_nat n.
Proof. unfold upto. now rewrite map_length, seq_length. Qed.
Lemma upto_nth n k : (k < Z.to_nat n)%nat -> nth_error (upto n) k = Some (Z.of_nat k).
Proof. intros H. unfold upto. apply map_nth_error. rewrite nth_error_nth' with (d := O) by now rewrite seq_length. now rewrite seq_nth. Qed.
Lemma in_upto n i : In i (upto n) <-> 0 <= i < n.
Proof.
  unfold upto. rewrite in_map_iff. split.
  - intros (k & <- & H). apply in_seq in H. lia.
  - intros H. exists (Z.to_nat i). rewrite in_seq. split; lia.
Qed.
Lemma in_pairs r c i j : In (i, j) (list_prod (upto r) (upto c)) <-> in_range r c i j.
Proof. rewrite in_prod_iff, !in_upto. reflexivity. Qed.
Lemma prod_nth {A B} (l : list A) (l' : list B) i j a b : nth_error l i = Some a -> nth_error l' j = Some b ->
  nth_error (list_prod l l') (i * length l' + j) = Some (a, b).
Proof.
  revert i. induction l as [|x l IH]; intros [|i] Ha Hb; cbn [list_prod] in *; try discriminate.
  - injection Ha as ->. cbn [Nat.mul Nat.add]. rewrite nth_error_app1.
    + now apply map_nth_error.
    + rewrite map_length. apply nth_error_Some. congruence.
  - rewrite nth_error_app2; rewrite map_length; [|nia]. replace (S i * length l' + j - length l')%nat with (i * length l' + j)%nat by nia. now apply IH.
Qed.
Lemma pair_nth r c i j : in_range r c i j -> nth_error (list_prod (upto r) (upto c)) (Z.to_nat (i * c + j)) = Some (i, j).
Proof.
  intros [Hi Hj]. replace (Z.to_nat (i * c + j)) with (Z.to_nat i * length (upto c) + Z.to_nat j)%nat.
  - apply prod_nth; rewrite upto_nth by lia; f_equal; lia.
  - rewrite upto_length. nia.
Qed.
Lemma pairs_length r c : 0 <= r -> 0 <= c -> Z.of_nat (length (list_prod (upto r) (upto c))) = r * c.
Proof. intros. rewrite prod_length, !upto_length. nia. Qed.

Lemma each_ok {A B} (f : A -> outcome B) g l : (forall x, In x l -> f x = Ok (g x)) -> each f l = Ok (map g l).
Proof.
  induction l as [|x l IH]; intros H; cbn [each map]; auto. rewrite H by now left. cbn. rewrite IH; [reflexivity|]. intros y Hy. apply H. now right.
Qed.
Lemma each_inv {A B} (f : A -> outcome B) l : forall r, each f l = Ok r -> length r = length l /\
  forall k x, nth_error l k = Some x -> exists y, nth_error r k = Some y /\ f x = Ok y.
Proof.
  induction l as [|x l IH]; intros r H; cbn [each] in H.
  - injection H as <-. split; auto. intros [|k]; discriminate.
  - destruct (f x) eqn:F; try discriminate. cbn in H. destruct (each f l) eqn:G; try discriminate. cbn in H. injection H as <-.
    destruct (IH _ eq_refl) as [L N]. split; [cbn; now rewrite L|]. intros [|k] y Hy; cbn in *.
    + injection Hy as <-. eauto.
    + now apply N.
Qed.

Section P.
Context {E : Type}.
Implicit Types m : matrix E.

Lemma make_ok r c (data : list E) : 0 <= r -> 0 <= c -> in_i64 (r * c) -> in_i64 r -> in_i64 c -> Z.of_nat (length data) = r * c ->
  make_matrix r c data = Ok (mk_matrix r c data) /\ valid (mk_matrix r c data).
Proof.
  intros Hr Hc H H1 H2 L. unfold make_matrix. assert (P : 0 <= r * c) by nia. i64.
  rewrite (Z.mod_small r), (Z.mod_small c), (Z.mod_small (r * c)), L, Z.eqb_refl by lia. cbn [negb].
  destruct (Z.ltb_spec r 0), (Z.ltb_spec c 0); try lia. cbn. split; auto. repeat split; cbn; unfold INT64_MIN, INT64_MAX; lia.
Qed.
Lemma make_inv r c (data : list E) m : make_matrix r c data = Ok m -> m = mk_matrix r c data /\ 0 <= r /\ 0 <= c.
Proof.
  unfold make_matrix. destruct (negb _); [discriminate|]. destruct (Z.ltb_spec r 0), (Z.ltb_spec c 0); cbn; try discriminate. intros H1; injection H1 as <-. auto.
Qed.

Lemma valid_index m i j : valid m -> in_range (m_rows m) (m_cols m) i j ->
  0 <= i * m_cols m + j < m_rows m * m_cols m /\ in_i64 (i * m_cols m) /\ in_i64 (i * m_cols m + j).
Proof.
  intros (A & B & C & D & L & F) [Hi Hj]. assert (i * m_cols m + j < m_rows m * m_cols m) by nia. assert (0 <= i * m_cols m) by nia. i64. lia.
Qed.
Lemma entry_some m i j : valid m -> in_range (m_rows m) (m_cols m) i j ->
  exists e, entry m i j = Some e /\ nth_error (m_data m) (Z.to_nat (i * m_cols m + j)) = Some e.
Proof.
  intros V R. pose proof (valid_index m i j V R) as (I & _ & _). destruct V as (A & B & C & D & L & F). destruct R as [Hi Hj].
  unfold entry. destruct (Z.leb_spec 0 i), (Z.ltb_spec i (m_rows m)), (Z.leb_spec 0 j), (Z.ltb_spec j (m_cols m)); try lia. cbn.
  destruct (nth_error (m_data m) (Z.to_nat (i * m_cols m + j))) eqn:N; eauto. apply nth_error_None in N. lia.
Qed.
Lemma entry_range m i j e : entry m i j = Some e -> in_range (m_rows m) (m_cols m) i j.
Proof.
  unfold entry. destruct (Z.leb_spec 0 i), (Z.ltb_spec i (m_rows m)), (Z.leb_spec 0 j), (Z.ltb_spec j (m_cols m)); cbn; try discriminate. intros _. split; lia.
Qed.
Lemma unchecked_ok m i j : valid m -> in_range (m_rows m) (m_cols m) i j ->
  exists e, get_unchecked m i j = Ok e /\ entry m i j = Some e.
Proof.
  intros V R. destruct (entry_some m i j V R) as (e & He & N). exists e. split; auto.
  destruct (valid_index m i j V R) as (I1 & I2 & I3). unfold get_unchecked, mach_mul, mach_add.
  rewrite mach_ok by auto. cbn. rewrite mach_ok by auto. cbn. destruct (Z.ltb_spec (i * m_cols m + j) 0); [lia|]. now rewrite N.
Qed.
Lemma at_ok m i j : valid m -> in_range (m_rows m) (m_cols m) i j -> exists e, at_ m i j = Ok e /\ entry m i j = Some e.
Proof.
  intros V R. destruct (unchecked_ok m i j V R) as (e & H & N). exists e. split; auto. destruct R as [Hi Hj]. unfold at_.
  destruct (Z.leb_spec (m_rows m) i), (Z.ltb_spec i 0), (Z.leb_spec (m_cols m) j), (Z.ltb_spec j 0); cbn; auto; lia.
Qed.
Lemma at_throws m i j : ~ in_range (m_rows m) (m_cols m) i j -> at_ m i j = Throws.
Proof.
  intros R. unfold in_range in R. unfold at_.
  destruct (Z.leb_spec (m_rows m) i), (Z.ltb_spec i 0), (Z.leb_spec (m_cols m) j), (Z.ltb_spec j 0); cbn; auto; lia.
Qed.

(** Everything built by the loop over rows and columns. *)
Lemma entry_of r c (data : list E) i j : in_range r c i j -> entry (mk_matrix r c data) i j = nth_error data (Z.to_nat (i * c + j)).
Proof.
  intros [Hi Hj]. unfold entry. cbn [m_rows m_cols m_data].
  destruct (Z.leb_spec 0 i), (Z.ltb_spec i r), (Z.leb_spec 0 j), (Z.ltb_spec j c); cbn; auto; lia.
Qed.
Lemma create_inv r c f m : 0 <= r -> 0 <= c -> in_i64 r -> in_i64 c -> in_i64 (r * c) -> create_matrix r c f = Ok m ->
  valid m /\ m_rows m = r /\ m_cols m = c /\ forall i j, in_range r c i j -> exists e, entry m i j = Some e /\ f i j = Ok e.
Proof.
  intros Hr Hc I1 I2 I3 H. unfold create_matrix, iter_matrix in H. destruct (each _ _) eqn:F; try discriminate. cbn in H.
  apply each_inv in F. destruct F as [L N]. pose proof (pairs_length r c Hr Hc) as P. rewrite <- L in P.
  destruct (make_ok r c a Hr Hc I3 I1 I2 P) as [M V]. rewrite M in H. injection H as <-. split; [exact V|]. repeat split; auto.
  intros i j R. destruct (N _ _ (pair_nth r c i j R)) as (e & He & Fe). exists e. split; auto. now rewrite entry_of.
Qed.
Lemma create_ok r c f g : 0 <= r -> 0 <= c -> in_i64 r -> in_i64 c -> in_i64 (r * c) ->
  (forall i j, in_range r c i j -> exists e, f i j = Ok e /\ g i j = Some e) ->
  exists m, create_matrix r c f = Ok m /\ is_matrix m r c g.
Proof.
  intros Hr Hc I1 I2 I3 H. assert (X : exists m, create_matrix r c f = Ok m).
  { unfold create_matrix, iter_matrix.
    assert (Y : exists l, each (fun ij => f (fst ij) (snd ij)) (list_prod (upto r) (upto c)) = Ok l).
    { assert (Z : forall x, In x (list_prod (upto r) (upto c)) -> exists e, f (fst x) (snd x) = Ok e).
      { intros [i j] Hx. apply in_pairs in Hx. destruct (H i j Hx) as (e & He & _). eauto. }
      revert Z. generalize (list_prod (upto r) (upto c)). clear. intros l. induction l as [|x l IH]; intros H; cbn [each]; eauto.
      destruct (H x (or_introl eq_refl)) as [e ->]. cbn. destruct IH as [t ->]; [intros; apply H; now right|]. cbn. eauto. }
    destruct Y as [l Y]. rewrite Y. cbn. apply each_inv in Y. destruct Y as [L _]. pose proof (pairs_length r c Hr Hc) as P. rewrite <- L in P.
    destruct (make_ok r c l Hr Hc I3 I1 I2 P) as [M V]. eauto. }
  destruct X as [m X]. exists m. split; auto. destruct (create_inv r c f m Hr Hc I1 I2 I3 X) as (V & A & B & C). split; [|split; [|split]]; auto.
  intros i j R. destruct (C i j R) as (e & He & Fe). destruct (H i j R) as (e' & He' & Ge). split; congruence.
Qed.

Lemma transposed_ok m : valid m -> exists t, transposed m = Ok t /\ is_matrix t (m_cols m) (m_rows m) (fun i j => entry m j i).
Proof.
  intros V. pose proof V as (A & B & C & D & L & F). apply create_ok; auto. { now rewrite Z.mul_comm. }
  intros i j [Hi Hj]. apply at_ok; [auto|split; auto].
Qed.
Lemma block_ok m row col nr nc : valid m -> 0 <= row -> 0 <= col -> 0 <= nr -> 0 <= nc -> row + nr <= m_rows m -> col + nc <= m_cols m ->
  exists b, get_block m row col nr nc = Ok b /\ is_matrix b nr nc (fun i j => entry m (row + i) (col + j)).
Proof.
  intros V H1 H2 H3 H4 H5 H6. pose proof V as (A & B & C & D & L & F). unfold get_block, mach_add, mach_mul.
  assert (Q : 0 <= nr * nc <= m_rows m * m_cols m) by nia.
  destruct (Z.ltb_spec row 0); [lia|]. rewrite mach_ok by (i64; lia). cbn. destruct (Z.ltb_spec (m_rows m) (row + nr)); [lia|].
  destruct (Z.ltb_spec col 0); [lia|]. rewrite mach_ok by (i64; lia). cbn. destruct (Z.ltb_spec (m_cols m) (col + nc)); [lia|].
  rewrite mach_ok by (i64; lia). cbn. destruct (Z.ltb_spec (nr * nc) 0); [lia|].
  fold (create_matrix nr nc (fun i j => get_unchecked m (i + row) (j + col))).
  apply create_ok; auto; try (i64; lia). intros i j [Hi Hj].
  destruct (unchecked_ok m (i + row) (j + col) V) as (e & He & Ne); [split; lia|]. exists e. split; auto. now rewrite (Z.add_comm row), (Z.add_comm col).
Qed.
Lemma block_throws m row col nr nc : valid m -> in_i64 (row + nr) -> in_i64 (col + nc) -> 
  row < 0 \/ col < 0 \/ m_rows m < row + nr \/ m_cols m < col + nc -> get_block m row col nr nc = Throws.
Proof.
  intros V H1 H2 H. unfold get_block, mach_add. destruct (Z.ltb_spec row 0); auto. rewrite mach_ok by auto. cbn.
  destruct (Z.ltb_spec (m_rows m) (row + nr)); auto. destruct (Z.ltb_spec col 0); auto. rewrite mach_ok by auto. cbn.
  destruct (Z.ltb_spec (m_cols m) (col + nc)); auto. lia.
Qed.
Lemma block_negative m row col nr nc b : get_block m row col nr nc = Ok b -> 0 <= nr /\ 0 <= nc.
Proof.
  unfold get_block. destruct (row <? 0); [discriminate|]. destruct (mach_add row nr); try discriminate. cbn. destruct (_ <? _); [discriminate|].
  destruct (col <? 0); [discriminate|]. destruct (mach_add col nc); try discriminate. cbn. destruct (_ <? _); [discriminate|].
  destruct (mach_mul nr nc); try discriminate. cbn. destruct (_ <? _); [discriminate|]. destruct (iter_matrix _ _ _); try discriminate. cbn.
  intros H. apply make_inv in H. tauto.
Qed.
Lemma reshape_ok m r c : valid m -> 0 <= r -> 0 <= c -> in_i64 r -> in_i64 c -> r * c = m_rows m * m_cols m ->
  reshape m r c = Ok (mk_matrix r c (m_data m)) /\ valid (mk_matrix r c (m_data m)).
Proof.
  intros V Hr Hc Ir Ic H. pose proof V as (A & B & C & D & L & F). unfold reshape. destruct (Z.ltb_spec r 0), (Z.ltb_spec c 0); try lia. cbn [orb].
  rewrite H. assert (0 <= m_rows m * m_cols m) by nia. rewrite (Z.mod_small (m_rows m * m_cols m)) by (i64; lia). rewrite L, Z.eqb_refl. cbn [negb].
  apply make_ok; auto; lia || (rewrite H; auto).
Qed.
Lemma reshape_throws m r c : valid m -> in_i64 (r * c) -> r < 0 \/ c < 0 \/ r * c <> m_rows m * m_cols m -> reshape m r c = Throws.
Proof.
  intros V Irc H. pose proof V as (A & B & C & D & L & F). unfold reshape. destruct (Z.ltb_spec r 0), (Z.ltb_spec c 0); cbn [orb]; auto.
  assert (0 <= r * c) by nia. rewrite (Z.mod_small (r * c)) by (i64; lia). rewrite L.
  destruct (Z.eqb_spec (m_rows m * m_cols m) (r * c)); [lia|]. cbn. unfold mach_mul. now rewrite mach_ok.
Qed.
Lemma vec_ok m : valid m -> exists t, vectorize_matrix m = Ok t /\
  is_matrix t (m_rows m * m_cols m) 1 (fun k _ => entry m (k mod m_rows m) (k / m_rows m)).
Proof.
  intros V. pose proof V as (A & B & C & D & L & F). unfold vectorize_matrix, mach_mul. rewrite mach_ok by auto. cbn.
  assert (Y : exists l, each (fun ji => at_ m (snd ji) (fst ji)) (list_prod (upto (m_cols m)) (upto (m_rows m))) = Ok l).
  { assert (Z : forall x, In x (list_prod (upto (m_cols m)) (upto (m_rows m))) -> exists e, at_ m (snd x) (fst x) = Ok e).
    { intros [j i] Hx. apply in_pairs in Hx. destruct Hx as [Hi Hj]. destruct (at_ok m i j V) as (e & He & _); [split; auto|]. eauto. }
    revert Z. generalize (list_prod (upto (m_cols m)) (upto (m_rows m))). clear. intros l. induction l as [|x l IH]; intros H; cbn [each]; eauto.
    destruct (H x (or_introl eq_refl)) as [e ->]. cbn. destruct IH as [t ->]; [intros; apply H; now right|]. cbn. eauto. }
  destruct Y as [l Y]. rewrite Y. cbn. apply each_inv in Y. destruct Y as [Ll N]. pose proof (pairs_length (m_cols m) (m_rows m) D C) as P. rewrite <- Ll in P.
  assert (0 <= m_rows m * m_cols m) by nia.
  destruct (make_ok (m_rows m * m_cols m) 1 l) as [M W]; try (i64; lia). exists (mk_matrix (m_rows m * m_cols m) 1 l). split; auto.
  split; [exact W|]. split; [reflexivity|]. split; [reflexivity|].
  intros k z [Hk Hz]. assert (z = 0) by lia. subst z. assert (Rp : 0 < m_rows m) by nia.
  assert (K1 : 0 <= k mod m_rows m < m_rows m) by (apply Z.mod_pos_bound; lia).
  assert (K2 : 0 <= k / m_rows m < m_cols m). { split; [apply Z.div_pos; lia|]. apply Z.div_lt_upper_bound; lia. }
  destruct (N _ _ (pair_nth (m_cols m) (m_rows m) (k / m_rows m) (k mod m_rows m) (conj K2 K1))) as (e & He & Fe). cbn [fst snd] in Fe.
  destruct (at_ok m (k mod m_rows m) (k / m_rows m) V (conj K1 K2)) as (e' & He' & Ne). rewrite Ne.
  rewrite entry_of by (split; lia). split; [|discriminate]. replace (k * 1 + 0) with (k / m_rows m * m_rows m + k mod m_rows m).
  - rewrite He. congruence.
  - pose proof (Z.div_mod k (m_rows m)). lia.
Qed.
End P.
