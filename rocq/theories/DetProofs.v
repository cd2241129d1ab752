(** Facts about determinants defined by expansion along the first column. *)
From Coq Require Import List Bool Reals Arith Lia Lra.
From Verif Require Import LuSpec.
Open Scope R_scope.

Lemma sumN_ext n f g : (forall i, (i < n)%nat -> f i = g i) -> sumN n f = sumN n g.
Proof. induction n as [|n IH]; intros H; cbn [sumN]; auto. rewrite IH by (intros; apply H; lia). f_equal. apply H. lia. Qed.
Lemma sumN_plus n f g : sumN n (fun i => f i + g i) = sumN n f + sumN n g.
Proof. induction n as [|n IH]; cbn [sumN]; [lra|]. rewrite IH. lra. Qed.
Lemma sumN_scale n k f : sumN n (fun i => k * f i) = k * sumN n f.
Proof. induction n as [|n IH]; cbn [sumN]; [lra|]. rewrite IH. lra. Qed.
Lemma sumN_opp n f : sumN n (fun i => - f i) = - sumN n f.
Proof. induction n as [|n IH]; cbn [sumN]; [lra|]. rewrite IH. lra. Qed.
Lemma sumN_zero n f : (forall i, (i < n)%nat -> f i = 0) -> sumN n f = 0.
Proof. intros H. rewrite (sumN_ext n f (fun _ => 0)); auto. clear. induction n as [|n IH]; cbn [sumN]; [lra|]. rewrite IH. lra. Qed.
Lemma sumN_last n f : sumN (S n) f = sumN n f + f n.
Proof. reflexivity. Qed.
Lemma sumN_first n f : sumN (S n) f = f O + sumN n (fun i => f (S i)).
Proof. induction n as [|n IH]; [cbn; lra|]. cbn [sumN] in *. rewrite IH. lra. Qed.
Lemma sumN_swap n m f : sumN n (fun i => sumN m (fun j => f i j)) = sumN m (fun j => sumN n (fun i => f i j)).
Proof.
  induction n as [|n IH]; cbn [sumN]; [symmetry; now apply sumN_zero|]. rewrite IH. now rewrite sumN_plus.
Qed.
Lemma sumN_single n k f : (k < n)%nat -> (forall i, (i < n)%nat -> i <> k -> f i = 0) -> sumN n f = f k.
Proof.
  induction n as [|n IH]; intros Hk H; [lia|]. cbn [sumN]. destruct (Nat.eq_dec k n) as [->|N].
  - rewrite sumN_zero by (intros; apply H; lia). lra.
  - rewrite IH by (try lia; intros; apply H; lia). rewrite (H n) by lia. lra.
Qed.
Lemma sumN_two n k f : (S k < n)%nat -> (forall i, (i < n)%nat -> i <> k -> i <> S k -> f i = 0) -> sumN n f = f k + f (S k).
Proof.
  induction n as [|n IH]; intros Hk H; [lia|]. cbn [sumN]. destruct (Nat.eq_dec (S k) n) as [<-|N].
  - rewrite (sumN_single (S k) k) by (try lia; intros; apply H; lia). lra.
  - rewrite IH by (try lia; intros; apply H; lia). rewrite (H n) by lia. lra.
Qed.

Ltac skp := unfold skip; repeat match goal with |- context [Nat.ltb ?a ?b] => destruct (Nat.ltb_spec a b) end; try lia.

Lemma det_ext n : forall a b, (forall i j, (i < n)%nat -> (j < n)%nat -> a i j = b i j) -> det n a = det n b.
Proof.
  induction n as [|n IH]; intros a b H; [reflexivity|]. cbn [det]. apply sumN_ext. intros i Hi. rewrite H by lia. f_equal. apply IH.
  intros r c Hr Hc. apply H; [skp|lia].
Qed.

Ltac eqbs := repeat match goal with |- context [Nat.eqb ?a ?b] =>
  lazymatch a with context [if _ then _ else _] => fail | _ => destruct (Nat.eqb_spec a b); try lia end end.
(** ** Rows *)
Definition adj (k i : nat) : nat := if Nat.eqb i k then S k else if Nat.eqb i (S k) then k else i.
Ltac adjs := unfold adj; repeat match goal with |- context [Nat.eqb ?a ?b] => destruct (Nat.eqb_spec a b) end; try lia.

Lemma det_adj_rows n : forall k a, (S k < n)%nat -> det n (fun i j => a (adj k i) j) = - det n a.
Proof.
  induction n as [|n IH]; intros k a Hk; [lia|]. cbn [det].
  set (F := fun (a : nat -> nat -> R) i => (-1) ^ i * a i O * det n (fun r c => a (skip i r) (S c))).
  change (sumN (S n) (F (fun i j => a (adj k i) j)) = - sumN (S n) (F a)).
  assert (Ho : forall i, (i < S n)%nat -> i <> k -> i <> S k -> F (fun i j => a (adj k i) j) i + F a i = 0).
  { intros i Hi N1 N2. unfold F. replace (adj k i) with i by (adjs).
    assert (D : det n (fun r c => a (adj k (skip i r)) (S c)) = - det n (fun r c => a (skip i r) (S c))).
    { destruct (Nat.lt_ge_cases i k) as [L|L].
      - destruct k as [|k]; [lia|]. rewrite <- (IH k (fun r c => a (skip i r) (S c))) by lia. apply det_ext. intros r c Hr Hc. f_equal. unfold adj, skip.
        repeat match goal with |- context [Nat.ltb ?a ?b] => destruct (Nat.ltb_spec a b) | |- context [Nat.eqb ?a ?b] => destruct (Nat.eqb_spec a b) end; lia.
      - rewrite <- (IH k (fun r c => a (skip i r) (S c))) by lia. apply det_ext. intros r c Hr Hc. f_equal. unfold adj, skip.
        repeat match goal with |- context [Nat.ltb ?a ?b] => destruct (Nat.ltb_spec a b) | |- context [Nat.eqb ?a ?b] => destruct (Nat.eqb_spec a b) end; lia. }
    rewrite D. ring. }
  assert (Hs : sumN (S n) (fun i => F (fun i j => a (adj k i) j) i + F a i) = 0).
  { rewrite (sumN_two (S n) k) by auto. 
    assert (K1 : F (fun i j => a (adj k i) j) k = - F a (S k)).
    { unfold F. replace (adj k k) with (S k) by adjs. replace (det n (fun r c => a (adj k (skip k r)) (S c))) with (det n (fun r c => a (skip (S k) r) (S c))); [cbn [pow]; ring|].
      apply det_ext. intros r c Hr Hc. f_equal. unfold adj, skip.
      repeat match goal with |- context [Nat.ltb ?a ?b] => destruct (Nat.ltb_spec a b) | |- context [Nat.eqb ?a ?b] => destruct (Nat.eqb_spec a b) end; lia. }
    assert (K2 : F (fun i j => a (adj k i) j) (S k) = - F a k).
    { unfold F. replace (adj k (S k)) with k by adjs. replace (det n (fun r c => a (adj k (skip (S k) r)) (S c))) with (det n (fun r c => a (skip k r) (S c))); [cbn [pow]; ring|].
      apply det_ext. intros r c Hr Hc. f_equal. unfold adj, skip.
      repeat match goal with |- context [Nat.ltb ?a ?b] => destruct (Nat.ltb_spec a b) | |- context [Nat.eqb ?a ?b] => destruct (Nat.eqb_spec a b) end; lia. }
    rewrite K1, K2. ring. }
  rewrite sumN_plus in Hs. lra.
Qed.

(** Transposition of 0 and [p]. *)
Definition tr (p i : nat) : nat := if Nat.eqb i p then 0%nat else if Nat.eqb i 0 then p else i.
Lemma det_swap_rows n p : forall a, (S p < n)%nat -> det n (fun i j => a (tr (S p) i) j) = - det n a.
Proof.
  induction p as [|p IH]; intros a Hp.
  - rewrite <- (det_adj_rows n 0 a) by lia. apply det_ext. intros i j Hi Hj. f_equal. unfold tr, adj.
    eqbs; lia.
  - rewrite (det_ext n _ (fun i j => a (adj (S p) (tr (S p) (adj (S p) i))) j)).
    2: { intros i j Hi Hj. f_equal. unfold tr, adj. eqbs; lia. }
    rewrite (det_adj_rows n (S p) (fun i j => a (adj (S p) (tr (S p) i)) j)) by lia.
    rewrite (IH (fun i j => a (adj (S p) i) j)) by lia. rewrite (det_adj_rows n (S p) a) by lia. ring.
Qed.

(** ** Row operations *)
Definition with_row (a : nat -> nat -> R) (k : nat) (r : nat -> R) : nat -> nat -> R := fun i j => if Nat.eqb i k then r j else a i j.
Lemma det_linear n : forall a k r s t, (k < n)%nat ->
  det n (with_row a k (fun j => r j + t * s j)) = det n (with_row a k r) + t * det n (with_row a k s).
Proof.
  induction n as [|n IH]; intros a k r s t Hk; [lia|]. cbn [det]. rewrite <- sumN_scale, <- sumN_plus. apply sumN_ext. intros i Hi.
  unfold with_row at 1 3 5. destruct (Nat.eqb_spec i k) as [->|N].
  - assert (D : forall q, det n (fun r0 c => with_row a k q (skip k r0) (S c)) = det n (fun r0 c => a (skip k r0) (S c))).
    { intros q. apply det_ext. intros x y Hx Hy. unfold with_row. destruct (Nat.eqb_spec (skip k x) k) as [E|]; auto. exfalso. revert E. skp. }
    rewrite !D. ring.
  - set (k' := if Nat.ltb k i then k else pred k).
    assert (D : forall q, det n (fun r0 c => with_row a k q (skip i r0) (S c)) = det n (with_row (fun r0 c => a (skip i r0) (S c)) k' (fun j => q (S j)))).
    { intros q. apply det_ext. intros x y Hx Hy. unfold with_row, k'. unfold skip.
      repeat match goal with |- context [Nat.ltb ?a ?b] => destruct (Nat.ltb_spec a b) | |- context [Nat.eqb ?a ?b] => destruct (Nat.eqb_spec a b) end; auto; lia. }
    rewrite !D. rewrite (IH _ k' (fun j => r (S j)) (fun j => s (S j)) t). { ring. }
    unfold k'. destruct (Nat.ltb_spec k i); lia.
Qed.
Lemma det_equal_rows n a k : (0 < k < n)%nat -> (forall j, (j < n)%nat -> a k j = a O j) -> det n a = 0.
Proof.
  intros Hk H. destruct k as [|k]; [lia|]. assert (D : det n (fun i j => a (tr (S k) i) j) = det n a).
  { apply det_ext. intros i j Hi Hj. unfold tr. repeat match goal with |- context [Nat.eqb ?a ?b] => destruct (Nat.eqb_spec a b) end; subst; auto. symmetry. auto. }
  rewrite det_swap_rows in D by lia. lra.
Qed.
Lemma det_row_op n a k t : (0 < k < n)%nat -> det n (with_row a k (fun j => a k j + t * a O j)) = det n a.
Proof.
  intros Hk. rewrite (det_linear n a k (fun j => a k j) (fun j => a O j) t) by lia. rewrite (det_equal_rows n (with_row a k (fun j => a O j)) k); auto.
  - replace (det n (with_row a k (fun j => a k j))) with (det n a); [ring|]. apply det_ext. intros i j Hi Hj. unfold with_row. destruct (Nat.eqb_spec i k); now subst.
  - intros j Hj. unfold with_row. rewrite Nat.eqb_refl. destruct (Nat.eqb_spec 0 k); [lia|auto].
Qed.
(** Multiples of the first row added to all the others. *)
Lemma det_row_ops n a (t : nat -> R) : det n (fun i j => match i with O => a O j | S _ => a i j + t i * a O j end) = det n a.
Proof.
  assert (H : forall m, (m <= n)%nat -> det n (fun i j => if Nat.eqb i 0 then a O j else if Nat.ltb i m then a i j + t i * a O j else a i j) = det n a).
  { induction m as [|m IH]; intros Hm.
    - apply det_ext. intros [|i] j Hi Hj; reflexivity.
    - rewrite <- IH by lia. destruct m as [|m].
      + apply det_ext. intros [|i] j Hi Hj; reflexivity.
      + set (b := fun i j => if Nat.eqb i 0 then a O j else if Nat.ltb i (S m) then a i j + t i * a O j else a i j).
        rewrite <- (det_row_op n b (S m) (t (S m))) by lia. apply det_ext. intros i j Hi Hj. unfold with_row, b.
        destruct (Nat.eqb_spec i (S m)) as [->|N].
        * cbn [Nat.eqb]. destruct (Nat.ltb_spec (S m) (S (S m))); [|lia]. destruct (Nat.ltb_spec (S m) (S m)); [lia|]. reflexivity.
        * destruct (Nat.eqb_spec i 0); auto. destruct (Nat.ltb_spec i (S (S m))), (Nat.ltb_spec i (S m)); auto; lia. }
  rewrite <- (H n) by lia. apply det_ext. intros [|i] j Hi Hj; [reflexivity|]. cbn [Nat.eqb]. destruct (Nat.ltb_spec (S i) n); [auto|lia].
Qed.
(** A first column that is zero below the diagonal. *)
Lemma det_corner n a : (forall i, (i < n)%nat -> a (S i) O = 0) -> det (S n) a = a O O * det n (fun i j => a (S i) (S j)).
Proof.
  intros H. cbn [det]. rewrite (sumN_single (S n) 0); [|lia|intros [|i] Hi N; [lia|rewrite H by lia; ring]]. cbn [pow].
  rewrite (det_ext n (fun r c => a (skip 0 r) (S c)) (fun i j => a (S i) (S j))); [ring|]. intros; f_equal.
Qed.
Lemma det_eliminate n a : a O O <> 0 ->
  det (S n) a = a O O * det n (fun i j => a (S i) (S j) - a (S i) O * a O (S j) / a O O).
Proof.
  intros H. rewrite <- (det_row_ops (S n) a (fun i => - (a i O / a O O))). rewrite det_corner.
  - f_equal. apply det_ext. intros i j Hi Hj. field. auto.
  - intros i Hi. field. auto.
Qed.

(** ** Columns *)
Lemma sum_pairs m h : sumN (S m) (fun i => sumN m (fun j => h i j)) =
  sumN m (fun j => sumN m (fun k => if Nat.leb j k then h j k + h (S k) j else 0)).
Proof.
  rewrite (sumN_ext (S m) _ (fun i => sumN m (fun j => if Nat.leb i j then h i j else 0) + sumN m (fun j => if Nat.leb i j then 0 else h i j))).
  2: { intros i Hi. rewrite <- sumN_plus. apply sumN_ext. intros j Hj. destruct (Nat.leb i j); lra. }
  rewrite sumN_plus. rewrite (sumN_last m (fun i => sumN m (fun j => if Nat.leb i j then h i j else 0))). rewrite (sumN_zero m (fun j => if Nat.leb m j then h m j else 0)).
  2: { intros j Hj. destruct (Nat.leb_spec m j); [lia|auto]. }
  rewrite (sumN_first m (fun i => sumN m (fun j => if Nat.leb i j then 0 else h i j))).
  rewrite (sumN_zero m (fun j => if Nat.leb 0 j then 0 else h O j)) by (intros; reflexivity).
  rewrite (sumN_swap m m (fun i j => if Nat.leb (S i) j then 0 else h (S i) j)).
  rewrite Rplus_0_r, Rplus_0_l, <- sumN_plus. apply sumN_ext. intros j Hj. rewrite <- sumN_plus. apply sumN_ext. intros k Hk.
  destruct (Nat.leb_spec j k), (Nat.leb_spec (S k) j); try lia; lra.
Qed.
Lemma det_two n a : det (S (S n)) a = sumN (S (S n)) (fun i => sumN (S n) (fun j =>
  (-1) ^ (i + j) * a i 0%nat * a (skip i j) 1%nat * det n (fun r c => a (skip i (skip j r)) (S (S c))))).
Proof.
  change (det (S (S n)) a) with (sumN (S (S n)) (fun i => (-1) ^ i * a i 0%nat * det (S n) (fun r c => a (skip i r) (S c)))).
  apply sumN_ext. intros i Hi. 
  change (det (S n) (fun r c => a (skip i r) (S c))) with (sumN (S n) (fun j => (-1) ^ j * a (skip i j) 1%nat * det n (fun r c => a (skip i (skip j r)) (S (S c))))).
  rewrite <- sumN_scale. apply sumN_ext. intros j Hj. rewrite pow_add. ring.
Qed.
Lemma det_first_columns n a : det (S (S n)) (fun i j => a i (adj 0 j)) = - det (S (S n)) a.
Proof.
  rewrite !det_two. rewrite !sum_pairs. rewrite <- sumN_opp. apply sumN_ext. intros j Hj. rewrite <- sumN_opp. apply sumN_ext. intros k Hk.
  destruct (Nat.leb_spec j k) as [L|]; [|lra]. change (adj 0 0) with 1%nat. change (adj 0 1) with 0%nat.
  replace (skip j k) with (S k) by skp. replace (skip (S k) j) with j by skp.
  assert (D : det n (fun r c => a (skip (S k) (skip j r)) (S (S c))) = det n (fun r c => a (skip j (skip k r)) (S (S c)))).
  { apply det_ext. intros r c Hr Hc. f_equal. skp. }
  rewrite (det_ext n (fun r c => a (skip (S k) (skip j r)) (adj 0 (S (S c)))) (fun r c => a (skip (S k) (skip j r)) (S (S c)))) by (intros; reflexivity).
  rewrite (det_ext n (fun r c => a (skip j (skip k r)) (adj 0 (S (S c)))) (fun r c => a (skip j (skip k r)) (S (S c)))) by (intros; reflexivity).
  rewrite D. replace (S k + j)%nat with (S (j + k)) by lia. cbn [pow]. ring.
Qed.
Lemma det_adj_cols n : forall k a, (S k < n)%nat -> det n (fun i j => a i (adj k j)) = - det n a.
Proof.
  induction n as [|n IH]; intros k a Hk; [lia|]. destruct k as [|k].
  - destruct n as [|n]; [lia|]. apply det_first_columns.
  - cbn [det]. rewrite <- sumN_opp. apply sumN_ext. intros i Hi. change (adj (S k) 0) with 0%nat.
    rewrite (det_ext n (fun r c => a (skip i r) (adj (S k) (S c))) (fun r c => a (skip i r) (S (adj k c)))).
    + rewrite (IH k (fun r c => a (skip i r) (S c))) by lia. ring.
    + intros r c Hr Hc. f_equal. unfold adj. eqbs; lia.
Qed.
Lemma det_swap_cols n p : forall a, (S p < n)%nat -> det n (fun i j => a i (tr (S p) j)) = - det n a.
Proof.
  induction p as [|p IH]; intros a Hp.
  - rewrite <- (det_adj_cols n 0 a) by lia. apply det_ext. intros i j Hi Hj. f_equal. unfold tr, adj.
    eqbs; lia.
  - rewrite (det_ext n _ (fun i j => a i (adj (S p) (tr (S p) (adj (S p) j))))).
    2: { intros i j Hi Hj. f_equal. unfold tr, adj. eqbs; lia. }
    rewrite (det_adj_cols n (S p) (fun i j => a i (adj (S p) (tr (S p) j)))) by lia.
    rewrite (IH (fun i j => a i (adj (S p) j))) by lia. rewrite (det_adj_cols n (S p) a) by lia. ring.
Qed.
(** A zero row. *)
Lemma det_zero_row n a k : (k < n)%nat -> (forall j, (j < n)%nat -> a k j = 0) -> det n a = 0.
Proof.
  intros Hk H. pose (z := fun _ : nat => 0). pose proof (det_linear n a k z z (-1) Hk) as D.
  assert (E1 : det n (with_row a k (fun j => z j + -1 * z j)) = det n a).
  { apply det_ext. intros i j Hi Hj. unfold with_row, z. destruct (Nat.eqb_spec i k); subst; auto. rewrite H by auto. ring. }
  rewrite E1 in D. lra.
Qed.
