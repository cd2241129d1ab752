(** Proofs about stacking and products of matrices. *)
From Coq Require Import ZArith List Bool Reals Lia Lra.
From Verif Require Import Outcome MatrixModel MatrixSpec MatrixProofs.
Import ListNotations.
Open Scope Z_scope.
Open Scope outcome_scope.

Section P.
Context {E : Type}.
Implicit Types m : matrix E.
Implicit Types ms : list (matrix E).

Lemma write_ok (l : list E) : forall k e, (k < length l)%nat -> exists l', write l k e = Ok l' /\ length l' = length l /\
  forall x, nth_error l' x = if Nat.eqb x k then Some e else nth_error l x.
Proof.
  induction l as [|y l IH]; intros [|k] e H; cbn [length] in H; try lia; cbn [write].
  - eexists. split; [reflexivity|]. split; [reflexivity|]. intros [|x]; reflexivity.
  - destruct (IH k e) as (l' & W & L & N); [lia|]. rewrite W. cbn. eexists. split; [reflexivity|]. split; [cbn; lia|]. intros [|x]; cbn; auto.
Qed.

Definition covers m ro co a b : bool := (ro <=? a) && (a <? ro + m_rows m) && (co <=? b) && (b <? co + m_cols m).
Lemma covers_spec m ro co a b : covers m ro co a b = true <-> in_range (m_rows m) (m_cols m) (a - ro) (b - co).
Proof.
  unfold covers, in_range. rewrite !andb_true_iff, !Z.leb_le, !Z.ltb_lt. lia.
Qed.

Definition pair_dec (x y : Z * Z) : {x = y} + {x <> y}.
Proof. decide equality; apply Z.eq_dec. Defined.
Lemma copy_ok m R C ro co : valid m -> 0 <= ro -> 0 <= co -> ro + m_rows m <= R -> co + m_cols m <= C ->
  forall ijs result, (forall i j, In (i, j) ijs -> in_range (m_rows m) (m_cols m) i j) -> Z.of_nat (length result) = R * C ->
  exists r, copy_elements m C ro co ijs result = Ok r /\ length r = length result /\
  forall a b, in_range R C a b -> nth_error r (Z.to_nat (a * C + b)) =
    if in_dec pair_dec (a - ro, b - co) ijs then entry m (a - ro) (b - co) else nth_error result (Z.to_nat (a * C + b)).
Proof.
  intros V H1 H2 H3 H4. induction ijs as [|[i j] t IH]; intros result Hin Hlen; cbn [copy_elements].
  - exists result. repeat split; auto.
  - destruct (Hin i j (or_introl eq_refl)) as [Hi Hj]. destruct (unchecked_ok m i j V (conj Hi Hj)) as (e & G & N). rewrite G. cbn.
    assert (K : 0 <= (i + ro) * C + (j + co) < R * C) by nia. unfold write_at.
    destruct (Z.ltb_spec ((i + ro) * C + (j + co)) 0); [lia|].
    destruct (write_ok result (Z.to_nat ((i + ro) * C + (j + co))) e) as (r' & W & L & Nr); [lia|]. rewrite W. cbn.
    destruct (IH r') as (r & Hr & Lr & Fr); [intros; apply Hin; now right|congruence|].
    exists r. split; auto. split; [congruence|]. intros a b Hab. rewrite Fr by auto.
    match goal with |- (if ?x then _ else _) = (if ?y then _ else _) => destruct x as [I1|I1], y as [I2|I2] end; auto.
    + exfalso. apply I2. now right.
    + rewrite Nr. destruct I2 as [I2|I2]; [|contradiction]. injection I2 as E1 E2.
      replace (a * C + b) with ((i + ro) * C + (j + co)) by nia. rewrite Nat.eqb_refl. rewrite <- N. f_equal; lia.
    + rewrite Nr. destruct (Nat.eqb_spec (Z.to_nat (a * C + b)) (Z.to_nat ((i + ro) * C + (j + co)))) as [E1|E1]; auto.
      exfalso. apply I2. left. destruct Hab as [Ha Hb]. assert (E2 : a * C + b = (i + ro) * C + (j + co)) by nia.
      assert (a = i + ro) by nia. subst a. f_equal; lia.
Qed.

(** What is on top after all matrices have been copied. *)
Fixpoint final (ms : list (matrix E)) (ir ic : bool) (ro co : Z) (base : option E) (a b : Z) : option E :=
  match ms with
  | [] => base
  | m :: t => final t ir ic (ro + m_rows m * (if ir then 1 else 0)) (co + m_cols m * (if ic then 1 else 0))
                (if covers m ro co a b then entry m (a - ro) (b - co) else base) a b
  end.
Fixpoint fits (ms : list (matrix E)) (ir ic : bool) (ro co R C : Z) : Prop :=
  match ms with
  | [] => True
  | m :: t => 0 <= ro /\ 0 <= co /\ ro + m_rows m <= R /\ co + m_cols m <= C /\
              fits t ir ic (ro + m_rows m * (if ir then 1 else 0)) (co + m_cols m * (if ic then 1 else 0)) R C
  end.
Lemma loop_ok ir ic R C : forall ms ro co result, Forall valid ms -> fits ms ir ic ro co R C -> Z.of_nat (length result) = R * C ->
  exists r, stack_loop ms C ir ic ro co result = Ok r /\ length r = length result /\
  forall a b, in_range R C a b -> nth_error r (Z.to_nat (a * C + b)) = final ms ir ic ro co (nth_error result (Z.to_nat (a * C + b))) a b.
Proof.
  induction ms as [|m t IH]; intros ro co result V F L; cbn [stack_loop final].
  - exists result. auto.
  - destruct F as (F1 & F2 & F3 & F4 & F). pose proof (Forall_inv V) as Vm. apply Forall_inv_tail in V.
    destruct (copy_ok m R C ro co Vm F1 F2 F3 F4 (list_prod (upto (m_rows m)) (upto (m_cols m))) result) as (r' & Hr' & Lr' & Nr'); auto.
    { intros i j Hij. now apply in_pairs. }
    rewrite Hr'. cbn. destruct (IH _ _ r' V F) as (r & Hr & Lr & Nr); [congruence|]. exists r. split; auto. split; [congruence|].
    intros a b Hab. rewrite Nr, Nr' by auto. f_equal. destruct (in_dec _ _ _) as [I|I].
    + apply in_pairs in I. apply covers_spec in I. now rewrite I.
    + destruct (covers m ro co a b) eqn:Cv; auto. exfalso. apply I. apply in_pairs. now apply covers_spec.
Qed.

Definition nonneg m := 0 <= m_rows m /\ 0 <= m_cols m.
Lemma valid_nonneg m : valid m -> nonneg m.
Proof. intros (A & B & C & D & _). split; auto. Qed.
Lemma sums_nonneg (ms : list (matrix E)) : Forall nonneg ms -> 0 <= sum_rows ms /\ 0 <= sum_cols ms.
Proof.
  unfold sum_rows, sum_cols. induction 1 as [|m t [H1 H2] _ IH]; cbn; lia.
Qed.
Lemma zero_rows (ms : list (matrix E)) : Forall nonneg ms -> sum_rows ms = 0 -> Forall (fun m => m_rows m = 0) ms.
Proof.
  intros H. induction H as [|m t [H1 H2] Ht IH]; intros Z; constructor.
  - cbn in Z. fold (sum_rows t) in Z. pose proof (sums_nonneg t Ht). lia.
  - apply IH. cbn in Z. fold (sum_rows t) in Z. pose proof (sums_nonneg t Ht). lia.
Qed.
Lemma zero_cols (ms : list (matrix E)) : Forall nonneg ms -> sum_cols ms = 0 -> Forall (fun m => m_cols m = 0) ms.
Proof.
  intros H. induction H as [|m t [H1 H2] Ht IH]; intros Z; constructor.
  - cbn in Z. fold (sum_cols t) in Z. pose proof (sums_nonneg t Ht). lia.
  - apply IH. cbn in Z. fold (sum_cols t) in Z. pose proof (sums_nonneg t Ht). lia.
Qed.
Lemma fits_intro (ir ic : bool) R C : forall ms ro co, Forall nonneg ms -> 0 <= ro -> 0 <= co ->
  (if ir then ro + sum_rows ms <= R else Forall (fun m => ro + m_rows m <= R) ms) ->
  (if ic then co + sum_cols ms <= C else Forall (fun m => co + m_cols m <= C) ms) -> fits ms ir ic ro co R C.
Proof.
  induction ms as [|m t IH]; intros ro co N Hr Hc F G; cbn [fits]; auto.
  pose proof (Forall_inv N) as [N1 N2]. apply Forall_inv_tail in N. destruct (sums_nonneg t N) as [S1 S2].
  cbn [sum_rows sum_cols fold_right] in F, G. fold (sum_rows t) in F. fold (sum_cols t) in G.
  assert (F' : ro + m_rows m <= R) by (destruct ir; [lia|exact (Forall_inv F)]).
  assert (G' : co + m_cols m <= C) by (destruct ic; [lia|exact (Forall_inv G)]).
  repeat split; auto. apply IH; auto.
  - destruct ir; lia.
  - destruct ic; lia.
  - destruct ir; [lia|]. apply Forall_inv_tail in F. eapply Forall_impl; [|exact F]. cbv beta. intros; lia.
  - destruct ic; [lia|]. apply Forall_inv_tail in G. eapply Forall_impl; [|exact G]. cbv beta. intros; lia.
Qed.
Lemma final_empty ir ic (ms : list (matrix E)) base a b : (Forall (fun m => m_rows m = 0) ms \/ Forall (fun m => m_cols m = 0) ms) ->
  forall ro co, final ms ir ic ro co base a b = base.
Proof.
  intros H. induction ms as [|m t IH]; intros ro co; cbn [final]; auto.
  replace (covers m ro co a b) with false.
  - apply IH. destruct H as [H|H]; [left|right]; now apply Forall_inv_tail in H.
  - symmetry. apply not_true_iff_false. rewrite covers_spec. unfold in_range. destruct H as [H|H]; apply Forall_inv in H; lia.
Qed.
Lemma final_beside a : forall ms co base b, Forall nonneg ms -> Forall (fun m => 0 <= a < m_rows m) ms -> 0 <= b ->
  b < co + sum_cols ms -> final ms false true 0 co base a b = if b <? co then base else beside ms a (b - co).
Proof.
  induction ms as [|m t IH]; intros co base b N R Hb Hlt; cbn [final beside].
  - cbn in Hlt. destruct (Z.ltb_spec b co); [auto|lia].
  - pose proof (Forall_inv N) as [N1 N2]. apply Forall_inv_tail in N. pose proof (Forall_inv R) as Ra. apply Forall_inv_tail in R. cbn beta in Ra.
    cbn [sum_cols fold_right] in Hlt. fold (sum_cols t) in Hlt. rewrite !Z.mul_0_r, Z.mul_1_r. cbn [Z.add]. rewrite IH; auto; [|lia].
    destruct (Z.ltb_spec b co) as [L|L], (Z.ltb_spec b (co + m_cols m)) as [L2|L2]; try lia.
    + replace (covers m 0 co a b) with false; auto. symmetry. apply not_true_iff_false. rewrite covers_spec. unfold in_range. lia.
    + replace (covers m 0 co a b) with true. 2: { symmetry. apply covers_spec. split; lia. }
      destruct (Z.ltb_spec (b - co) (m_cols m)); [|lia]. now rewrite Z.sub_0_r.
    + destruct (Z.ltb_spec (b - co) (m_cols m)); [lia|]. f_equal. lia.
Qed.
Lemma final_below b : forall ms ro base a, Forall nonneg ms -> Forall (fun m => 0 <= b < m_cols m) ms -> 0 <= a ->
  a < ro + sum_rows ms -> final ms true false ro 0 base a b = if a <? ro then base else below ms (a - ro) b.
Proof.
  induction ms as [|m t IH]; intros co base a N R Hb Hlt; cbn [final below].
  - cbn in Hlt. destruct (Z.ltb_spec a co); [auto|lia].
  - pose proof (Forall_inv N) as [N1 N2]. apply Forall_inv_tail in N. pose proof (Forall_inv R) as Ra. apply Forall_inv_tail in R. cbn beta in Ra.
    cbn [sum_rows fold_right] in Hlt. fold (sum_rows t) in Hlt. rewrite !Z.mul_0_r, Z.mul_1_r. cbn [Z.add]. rewrite IH; auto; [|lia].
    destruct (Z.ltb_spec a co) as [L|L], (Z.ltb_spec a (co + m_rows m)) as [L2|L2]; try lia.
    + replace (covers m co 0 a b) with false; auto. symmetry. apply not_true_iff_false. rewrite covers_spec. unfold in_range. lia.
    + replace (covers m co 0 a b) with true. 2: { symmetry. apply covers_spec. split; lia. }
      destruct (Z.ltb_spec (a - co) (m_rows m)); [|lia]. now rewrite Z.sub_0_r.
    + destruct (Z.ltb_spec (a - co) (m_rows m)); [lia|]. f_equal. lia.
Qed.
Lemma final_along z : forall ms ro co base a b, Forall nonneg ms -> 0 <= a -> 0 <= b ->
  (ro <= a -> co <= b -> base = Some z) -> (ro <= a -> b < co -> base = Some z) -> (a < ro -> co <= b -> base = Some z) ->
  final ms true true ro co base a b = if (ro <=? a) && (co <=? b) then along z ms (a - ro) (b - co) else base.
Proof.
  induction ms as [|m t IH]; intros ro co base a b N Ha Hb B1 B2 B3; cbn [final along].
  - destruct (Z.leb_spec ro a), (Z.leb_spec co b); cbn; auto.
  - pose proof (Forall_inv N) as [N1 N2]. apply Forall_inv_tail in N. rewrite !Z.mul_1_r.
    destruct (covers m ro co a b) eqn:Cv.
    + apply covers_spec in Cv. destruct Cv as [C1 C2]. rewrite IH; auto; try lia.
      destruct (Z.leb_spec ro a), (Z.leb_spec co b); try lia. cbn [andb].
      destruct (Z.leb_spec (ro + m_rows m) a); [lia|]. cbn [andb].
      destruct (Z.ltb_spec (a - ro) (m_rows m)); [|lia]. destruct (Z.ltb_spec (b - co) (m_cols m)); [|lia]. reflexivity.
    + assert (NC : ~ in_range (m_rows m) (m_cols m) (a - ro) (b - co)) by (rewrite <- covers_spec, Cv; discriminate). unfold in_range in NC.
      rewrite IH; auto; try (intros; destruct (Z_lt_le_dec a ro), (Z_lt_le_dec b co); auto; lia).
      destruct (Z.leb_spec ro a), (Z.leb_spec co b), (Z.leb_spec (ro + m_rows m) a), (Z.leb_spec (co + m_cols m) b); try lia; cbn [andb]; auto.
      * destruct (Z.ltb_spec (a - ro) (m_rows m)); [lia|]. destruct (Z.ltb_spec (b - co) (m_cols m)); [lia|]. f_equal; lia.
      * destruct (Z.ltb_spec (a - ro) (m_rows m)); [lia|]. destruct (Z.ltb_spec (b - co) (m_cols m)); [|lia]. now apply B1.
      * destruct (Z.ltb_spec (a - ro) (m_rows m)); [|lia]. destruct (Z.ltb_spec (b - co) (m_cols m)); [lia|]. now apply B1.
Qed.

Variable ops : mat_ops E.
Lemma stack_ok m0 t R C f : let ms := m0 :: t in let ir := m_rows m0 <? R in let ic := m_cols m0 <? C in
  Forall valid ms -> 0 <= R -> 0 <= C -> in_i64 R -> in_i64 C -> in_i64 (R * C) -> fits ms ir ic 0 0 R C ->
  (forall a b, in_range R C a b -> final ms ir ic 0 0 (Some (op_zero ops)) a b = f a b /\ f a b <> None) ->
  exists m, stack ops ms R C = Ok m /\ is_matrix m R C f.
Proof.
  intros ms ir ic V H1 H2 I1 I2 I3 F G. unfold stack. fold ms. unfold ms at 1. fold ir ic. assert (0 <= R * C) by nia.
  rewrite Z.mod_small by (i64; lia).
  destruct (loop_ok ir ic R C ms 0 0 (repeat (op_zero ops) (Z.to_nat (R * C))) V F) as (r & Hr & Lr & Nr). { rewrite repeat_length. lia. }
  rewrite Hr. cbn. rewrite repeat_length in Lr. destruct (make_ok R C r) as [M W]; auto; [lia|]. exists (mk_matrix R C r). split; auto.
  split; [exact W|]. split; auto. split; auto. intros a b Hab. rewrite entry_of by auto. rewrite Nr by auto. rewrite <- (proj1 (G a b Hab)).
  split; [|rewrite (proj1 (G a b Hab)); apply G; auto]. f_equal. destruct Hab. rewrite nth_error_repeat; auto. nia.
Qed.

Lemma total_cols_spec r : forall ms acc, Forall nonneg ms -> 0 <= acc -> in_i64 (acc + sum_cols ms) ->
  (Forall (fun m => m_rows m = r) ms -> total_cols ms r acc = Ok (acc + sum_cols ms)) /\
  (Exists (fun m => m_rows m <> r) ms -> total_cols ms r acc = Throws).
Proof.
  induction ms as [|m t IH]; intros acc N Ha I; cbn [total_cols].
  - cbn. split; [intros; f_equal; lia|]. intros H. inversion H.
  - pose proof (Forall_inv N) as [N1 N2]. apply Forall_inv_tail in N. pose proof (sums_nonneg t N) as [S1 S2].
    cbn [sum_cols fold_right] in *. fold (sum_cols t) in *. unfold mach_add. rewrite mach_ok by (i64; lia). cbn [bind].
    destruct (IH (acc + m_cols m)) as [A B]; auto; [lia|i64; lia|]. split.
    + intros H. pose proof (Forall_inv H) as Hm. apply Forall_inv_tail in H. cbn beta in Hm. rewrite Hm, Z.eqb_refl. cbn. rewrite A by auto. f_equal. lia.
    + intros H. destruct (Z.eqb_spec (m_rows m) r) as [Em|Em]; cbn; auto. apply B. inversion H; [contradiction|auto].
Qed.
Lemma total_rows_spec c : forall ms acc, Forall nonneg ms -> 0 <= acc -> in_i64 (acc + sum_rows ms) ->
  (Forall (fun m => m_cols m = c) ms -> total_rows ms c acc = Ok (acc + sum_rows ms)) /\
  (Exists (fun m => m_cols m <> c) ms -> total_rows ms c acc = Throws).
Proof.
  induction ms as [|m t IH]; intros acc N Ha I; cbn [total_rows].
  - cbn. split; [intros; f_equal; lia|]. intros H. inversion H.
  - pose proof (Forall_inv N) as [N1 N2]. apply Forall_inv_tail in N. pose proof (sums_nonneg t N) as [S1 S2].
    cbn [sum_rows fold_right] in *. fold (sum_rows t) in *. unfold mach_add. rewrite mach_ok by (i64; lia). cbn [bind].
    destruct (IH (acc + m_rows m)) as [A B]; auto; [lia|i64; lia|]. split.
    + intros H. pose proof (Forall_inv H) as Hm. apply Forall_inv_tail in H. cbn beta in Hm. rewrite Hm, Z.eqb_refl. cbn. rewrite A by auto. f_equal. lia.
    + intros H. destruct (Z.eqb_spec (m_cols m) c) as [Em|Em]; cbn; auto. apply B. inversion H; [contradiction|auto].
Qed.
Lemma total_both_spec : forall ms r c, Forall nonneg ms -> 0 <= r -> 0 <= c -> in_i64 (r + sum_rows ms) -> in_i64 (c + sum_cols ms) ->
  total_both ms r c = Ok (r + sum_rows ms, c + sum_cols ms).
Proof.
  induction ms as [|m t IH]; intros r c N Hr Hc I J; cbn [total_both].
  - cbn. now rewrite !Z.add_0_r.
  - pose proof (Forall_inv N) as [N1 N2]. apply Forall_inv_tail in N. pose proof (sums_nonneg t N) as [S1 S2].
    cbn [sum_rows sum_cols fold_right] in *. fold (sum_rows t) in *. fold (sum_cols t) in *. unfold mach_add.
    rewrite mach_ok by (i64; lia). cbn [bind]. rewrite mach_ok by (i64; lia). cbn [bind]. rewrite IH; auto; try lia; try (i64; lia). do 2 f_equal; lia.
Qed.

Lemma beside_some : forall ms a b, Forall valid ms -> Forall (fun m => 0 <= a < m_rows m) ms -> 0 <= b < sum_cols ms -> beside ms a b <> None.
Proof.
  induction ms as [|m t IH]; intros a b V R H; cbn [beside]; [cbn in H; lia|].
  pose proof (Forall_inv V) as Vm. apply Forall_inv_tail in V. pose proof (Forall_inv R) as Rm. apply Forall_inv_tail in R. cbn beta in Rm.
  cbn [sum_cols fold_right] in H. fold (sum_cols t) in H. destruct (Z.ltb_spec b (m_cols m)).
  - destruct (entry_some m a b Vm) as (e & -> & _); [split; lia|discriminate].
  - apply IH; auto; lia.
Qed.
Lemma below_some : forall ms a b, Forall valid ms -> Forall (fun m => 0 <= b < m_cols m) ms -> 0 <= a < sum_rows ms -> below ms a b <> None.
Proof.
  induction ms as [|m t IH]; intros a b V R H; cbn [below]; [cbn in H; lia|].
  pose proof (Forall_inv V) as Vm. apply Forall_inv_tail in V. pose proof (Forall_inv R) as Rm. apply Forall_inv_tail in R. cbn beta in Rm.
  cbn [sum_rows fold_right] in H. fold (sum_rows t) in H. destruct (Z.ltb_spec a (m_rows m)).
  - destruct (entry_some m a b Vm) as (e & -> & _); [split; lia|discriminate].
  - apply IH; auto; lia.
Qed.
Lemma along_some z : forall ms a b, Forall valid ms -> 0 <= a -> 0 <= b -> along z ms a b <> None.
Proof.
  induction ms as [|m t IH]; intros a b V Ha Hb; cbn [along]; [discriminate|].
  pose proof (Forall_inv V) as Vm. apply Forall_inv_tail in V.
  destruct (Z.ltb_spec a (m_rows m)), (Z.ltb_spec b (m_cols m)); try discriminate.
  - destruct (entry_some m a b Vm) as (e & -> & _); [split; lia|discriminate].
  - apply IH; auto; lia.
Qed.

Lemma hstack_ok ms r : ms <> [] -> Forall valid ms -> Forall (fun m => m_rows m = r) ms -> in_i64 (sum_cols ms) -> in_i64 (r * sum_cols ms) ->
  exists m, hstack ops ms = Ok m /\ is_matrix m r (sum_cols ms) (beside ms).
Proof.
  intros Hne V R I J. destruct ms as [|m0 t]; [congruence|]. set (ms := m0 :: t) in *.
  assert (N : Forall nonneg ms) by (eapply Forall_impl; [|exact V]; intros; now apply valid_nonneg).
  assert (R0 : m_rows m0 = r) by exact (Forall_inv R). assert (V0 : valid m0) by exact (Forall_inv V).
  assert (E1 : sum_rows ms = m_rows m0 + sum_rows t) by reflexivity. assert (E2 : sum_cols ms = m_cols m0 + sum_cols t) by reflexivity.
  pose proof (sums_nonneg ms N) as [S1 S2]. destruct (total_cols_spec r ms 0 N ltac:(lia) I) as [T _].
  assert (0 <= r) by (destruct V0 as (_ & _ & Q & _); lia).
  unfold hstack. fold ms. unfold ms at 1. rewrite R0, T by auto. cbn [bind Z.add]. unfold ms at 1.
  apply stack_ok; cbv zeta; try (change (m0 :: t) with ms); auto.
  - destruct V0. subst r. auto.
  - replace (m_rows m0 <? r) with false by (symmetry; apply Z.ltb_ge; lia). apply fits_intro; auto; try lia.
    + eapply Forall_impl; [|exact R]. cbv beta. intros; lia.
    + destruct (Z.ltb_spec (m_cols m0) (sum_cols ms)); [lia|]. assert (Z0 : sum_cols t = 0).
      { pose proof (sums_nonneg t (Forall_inv_tail N)). lia. }
      constructor; [lia|]. apply Forall_inv_tail in N. eapply Forall_impl; [|exact (zero_cols t N Z0)]. cbv beta. intros; lia.
  - replace (m_rows m0 <? r) with false by (symmetry; apply Z.ltb_ge; lia). intros a b [Ha Hb]. fold ms.
    assert (RR : Forall (fun m => 0 <= a < m_rows m) ms) by (eapply Forall_impl; [|exact R]; cbn; intros; lia).
    split; [|apply beside_some; auto].
    destruct (Z.ltb_spec (m_cols m0) (sum_cols ms)).
    + rewrite final_beside; auto; try lia. destruct (Z.ltb_spec b 0); [lia|]. now rewrite Z.sub_0_r.
    + assert (Z0 : sum_cols t = 0).
      { pose proof (sums_nonneg t (Forall_inv_tail N)). lia. }
      unfold ms. cbn [final beside]. apply Forall_inv_tail in N. rewrite final_empty by (right; now apply zero_cols).
      unfold ms in Hb. cbn [sum_cols fold_right] in Hb. fold (sum_cols t) in Hb. destruct (Z.ltb_spec b (m_cols m0)); [|lia].
      replace (covers m0 0 0 a b) with true; [now rewrite !Z.sub_0_r|]. symmetry. apply covers_spec. split; lia.
Qed.
Lemma vstack_ok ms c : ms <> [] -> Forall valid ms -> Forall (fun m => m_cols m = c) ms -> in_i64 (sum_rows ms) -> in_i64 (sum_rows ms * c) ->
  exists m, vstack ops ms = Ok m /\ is_matrix m (sum_rows ms) c (below ms).
Proof.
  intros Hne V R I J. destruct ms as [|m0 t]; [congruence|]. set (ms := m0 :: t) in *.
  assert (N : Forall nonneg ms) by (eapply Forall_impl; [|exact V]; intros; now apply valid_nonneg).
  assert (R0 : m_cols m0 = c) by exact (Forall_inv R). assert (V0 : valid m0) by exact (Forall_inv V).
  assert (E1 : sum_rows ms = m_rows m0 + sum_rows t) by reflexivity. assert (E2 : sum_cols ms = m_cols m0 + sum_cols t) by reflexivity.
  pose proof (sums_nonneg ms N) as [S1 S2]. destruct (total_rows_spec c ms 0 N ltac:(lia) I) as [T _].
  assert (0 <= c) by (destruct V0 as (_ & _ & _ & Q & _); lia).
  unfold vstack. fold ms. unfold ms at 1. rewrite R0, T by auto. cbn [bind Z.add]. unfold ms at 1.
  apply stack_ok; cbv zeta; try (change (m0 :: t) with ms); auto.
  - destruct V0 as (_ & Q & _). subst c. auto.
  - replace (m_cols m0 <? c) with false by (symmetry; apply Z.ltb_ge; lia). apply fits_intro; auto; try lia.
    + destruct (Z.ltb_spec (m_rows m0) (sum_rows ms)); [lia|]. assert (Z0 : sum_rows t = 0).
      { pose proof (sums_nonneg t (Forall_inv_tail N)). lia. }
      constructor; [lia|]. apply Forall_inv_tail in N. eapply Forall_impl; [|exact (zero_rows t N Z0)]. cbv beta. intros; lia.
    + eapply Forall_impl; [|exact R]. cbv beta. intros; lia.
  - replace (m_cols m0 <? c) with false by (symmetry; apply Z.ltb_ge; lia). intros a b [Ha Hb]. fold ms.
    assert (RR : Forall (fun m => 0 <= b < m_cols m) ms) by (eapply Forall_impl; [|exact R]; cbn; intros; lia).
    split; [|apply below_some; auto].
    destruct (Z.ltb_spec (m_rows m0) (sum_rows ms)).
    + rewrite final_below; auto; try lia. destruct (Z.ltb_spec a 0); [lia|]. now rewrite Z.sub_0_r.
    + assert (Z0 : sum_rows t = 0).
      { pose proof (sums_nonneg t (Forall_inv_tail N)). lia. }
      unfold ms. cbn [final below]. apply Forall_inv_tail in N. rewrite final_empty by (left; now apply zero_rows).
      unfold ms in Ha. cbn [sum_rows fold_right] in Ha. fold (sum_rows t) in Ha. destruct (Z.ltb_spec a (m_rows m0)); [|lia].
      replace (covers m0 0 0 a b) with true; [now rewrite !Z.sub_0_r|]. symmetry. apply covers_spec. split; lia.
Qed.
Lemma diagonal_stack_ok ms : ms <> [] -> Forall valid ms -> in_i64 (sum_rows ms) -> in_i64 (sum_cols ms) -> in_i64 (sum_rows ms * sum_cols ms) ->
  exists m, diagonal_stack ops ms = Ok m /\ is_matrix m (sum_rows ms) (sum_cols ms) (along (op_zero ops) ms).
Proof.
  intros Hne V I1 I2 J. destruct ms as [|m0 t]; [congruence|]. set (ms := m0 :: t) in *.
  assert (N : Forall nonneg ms) by (eapply Forall_impl; [|exact V]; intros; now apply valid_nonneg).
  assert (V0 : valid m0) by exact (Forall_inv V). pose proof (Forall_inv N) as [N01 N02]. pose proof (Forall_inv_tail N) as Nt.
  pose proof (sums_nonneg ms N) as [S1 S2]. pose proof (sums_nonneg t Nt) as [S3 S4].
  assert (E1 : sum_rows ms = m_rows m0 + sum_rows t) by reflexivity. assert (E2 : sum_cols ms = m_cols m0 + sum_cols t) by reflexivity.
  unfold diagonal_stack. fold ms. unfold ms at 1. rewrite total_both_spec by (auto; lia). cbn [bind Z.add fst snd]. unfold ms at 1.
  apply stack_ok; cbv zeta; try (change (m0 :: t) with ms); auto.
  - apply fits_intro; auto; try lia.
    + destruct (Z.ltb_spec (m_rows m0) (sum_rows ms)); [lia|]. constructor; [lia|]. eapply Forall_impl; [|exact (zero_rows t Nt ltac:(lia))]. cbv beta. intros; lia.
    + destruct (Z.ltb_spec (m_cols m0) (sum_cols ms)); [lia|]. constructor; [lia|]. eapply Forall_impl; [|exact (zero_cols t Nt ltac:(lia))]. cbv beta. intros; lia.
  - intros a b [Ha Hb]. fold ms. split; [|apply along_some; auto; lia].
    destruct (Z.ltb_spec (m_rows m0) (sum_rows ms)) as [L1|L1], (Z.ltb_spec (m_cols m0) (sum_cols ms)) as [L2|L2].
    + rewrite final_along with (z := op_zero ops) by (auto; lia). destruct (Z.leb_spec 0 a), (Z.leb_spec 0 b); try lia. cbn. now rewrite !Z.sub_0_r.
    + unfold ms. cbn [final along]. rewrite final_empty by (right; apply zero_cols; auto; lia). rewrite !Z.sub_0_r.
      destruct (Z.ltb_spec b (m_cols m0)); [|lia]. destruct (covers m0 0 0 a b) eqn:Cv.
      * apply covers_spec in Cv. unfold in_range in Cv. destruct (Z.ltb_spec a (m_rows m0)); [auto|lia].
      * destruct (Z.ltb_spec a (m_rows m0)); auto. assert (Q : covers m0 0 0 a b = true) by (apply covers_spec; split; lia). congruence.
    + unfold ms. cbn [final along]. rewrite final_empty by (left; apply zero_rows; auto; lia). rewrite !Z.sub_0_r.
      destruct (Z.ltb_spec a (m_rows m0)); [|lia]. destruct (covers m0 0 0 a b) eqn:Cv.
      * apply covers_spec in Cv. unfold in_range in Cv. destruct (Z.ltb_spec b (m_cols m0)); [auto|lia].
      * destruct (Z.ltb_spec b (m_cols m0)); auto. assert (Q : covers m0 0 0 a b = true) by (apply covers_spec; split; lia). congruence.
    + unfold ms. cbn [final along]. rewrite final_empty by (left; apply zero_rows; auto; lia). rewrite !Z.sub_0_r.
      destruct (Z.ltb_spec a (m_rows m0)); [|lia]. destruct (Z.ltb_spec b (m_cols m0)); [|lia].
      replace (covers m0 0 0 a b) with true; auto. symmetry. apply covers_spec. split; lia.
Qed.

(** Products and sums by value. *)
Variables (good : E -> Prop) (v : E -> R).
Hypothesis SO : sound_ops ops good v.
Lemma sum_n_ext n f g : (forall k, 0 <= k < Z.of_nat n -> f k = g k) -> sum_n n f = sum_n n g.
Proof. induction n as [|n IH]; intros H; cbn [sum_n]; auto. rewrite IH by (intros; apply H; lia). f_equal. apply H. lia. Qed.
Lemma fold_sum (g : Z -> R) n : fold_right (fun k r => (g k + r)%R) 0%R (map Z.of_nat (seq 0 n)) = sum_n n g.
Proof.
  assert (H : forall l x, fold_right (fun k r => (g k + r)%R) x l = (fold_right (fun k r => (g k + r)%R) 0%R l + x)%R).
  { induction l as [|k l IH]; intros x; cbn [fold_right]; [lra|]. rewrite IH. lra. }
  induction n as [|n IH]; [reflexivity|]. rewrite seq_S, map_app, fold_right_app, H, IH. cbn [map fold_right sum_n plus]. lra.
Qed.
Lemma row_col a b i j A B r n c : has_values good v a r n A -> has_values good v b n c B -> in_range r c i j ->
  forall ks args, (forall k, In k ks -> 0 <= k < n) -> row_times_col ops a b i j ks = Ok args ->
  Forall good args /\ fold_right (fun e r => (v e + r)%R) 0%R args = fold_right (fun k r => (A i k * B k j + r)%R) 0%R ks.
Proof.
  intros (Va & Ra & Ca & Ha) (Vb & Rb & Cb & Hb) [Hi Hj]. induction ks as [|k ks IH]; intros args Hk H; cbn [row_times_col] in H.
  - injection H as <-. auto.
  - assert (K := Hk k (or_introl eq_refl)). destruct (at_ok a i k Va) as (x & Hx & Ex); [rewrite Ra, Ca; split; lia|].
    destruct (at_ok b k j Vb) as (y & Hy & Ey); [rewrite Rb, Cb; split; lia|]. rewrite Hx, Hy in H. cbn [bind] in H.
    destruct (Ha i k) as (x' & Ex' & Gx & Vx); [split; lia|]. destruct (Hb k j) as (y' & Ey' & Gy & Vy); [split; lia|].
    assert (x' = x) by congruence. assert (y' = y) by congruence. subst x' y'.
    destruct (op_mul ops x y) as [p| | | |] eqn:M; try discriminate. cbn [bind] in H. destruct (so_mul _ _ _ SO _ _ _ Gx Gy M) as [Gp Vp].
    destruct (row_times_col ops a b i j ks) as [t| | | |] eqn:T; try discriminate. cbn [bind] in H. injection H as <-.
    destruct (IH t) as [Gt Ft]; auto; [intros; apply Hk; now right|]. cbn [fold_right]. destruct (op_is_zero ops p) eqn:Zp.
    + apply (so_is_zero _ _ _ SO) in Zp; auto. split; auto. rewrite Ft, <- Vx, <- Vy, <- Vp, Zp. lra.
    + split; [constructor; auto|]. cbn [fold_right]. rewrite Ft, Vp, Vx, Vy. reflexivity.
Qed.
Lemma mat_mul_values a b r n c A B m : has_values good v a r n A -> has_values good v b n c B -> in_i64 (r * c) -> mat_mul ops a b = Ok m ->
  has_values good v m r c (fun i j => sum_n (Z.to_nat n) (fun k => (A i k * B k j)%R)).
Proof.
  intros HA HB I H. pose proof HA as (Va & Ra & Ca & Ha). pose proof HB as (Vb & Rb & Cb & Hb). unfold mat_mul in H.
  destruct (Z.eqb_spec (m_cols a) (m_rows b)) as [Ec|]; [|discriminate]. cbn [negb] in H.
  destruct Va as (A1 & A2 & A3 & A4 & A5 & A6). destruct Vb as (B1 & B2 & B3 & B4 & B5 & B6).
  apply create_inv in H; auto; [|now rewrite Ra, Cb]. destruct H as (V & Rm & Cm & Hm).
  split; [exact V|]. split; [congruence|]. split; [congruence|]. intros i j Hij. rewrite Ra, Cb in *. destruct (Hm i j Hij) as (e & He & Fe).
  exists e. split; auto. destruct (row_times_col ops a b i j (upto (m_cols a))) as [args| | | |] eqn:T; try discriminate. cbn [bind] in Fe.
  destruct (row_col a b i j A B r n c HA HB Hij (upto (m_cols a)) args) as [Ga Fa]; auto. { rewrite Ca. intros k Hk. now apply in_upto in Hk. }
  rewrite <- fold_sum. rewrite Ca in Fa. unfold upto in Fa. rewrite <- Fa. destruct args as [|x args].
  - injection Fe as <-. cbn. apply (so_zero _ _ _ SO).
  - apply (so_sum _ _ _ SO) in Fe; auto. discriminate.
Qed.
Lemma zip_values f g a b r c A B m : (forall x y e, good x -> good y -> f x y = Ok e -> good e /\ v e = g (v x) (v y)) ->
  has_values good v a r c A -> has_values good v b r c B -> mat_zip f a b = Ok m ->
  has_values good v m r c (fun i j => g (A i j) (B i j)).
Proof.
  intros F (Va & Ra & Ca & Ha) (Vb & Rb & Cb & Hb) H. unfold mat_zip in H. rewrite Ra, Rb, Ca, Cb, !Z.eqb_refl in H. cbn [negb orb] in H.
  pose proof Va as (A1 & A2 & A3 & A4 & A5 & A6). apply create_inv in H; try (rewrite <- ?Ra, <- ?Ca; auto; fail). destruct H as (V & Rm & Cm & Hm).
  split; [exact V|]. split; auto. split; auto. intros i j Hij. destruct (Hm i j Hij) as (e & He & Fe). exists e. split; auto.
  destruct (at_ok a i j Va) as (x & Hx & Ex); [now rewrite Ra, Ca|]. destruct (at_ok b i j Vb) as (y & Hy & Ey); [now rewrite Rb, Cb|].
  rewrite Hx, Hy in Fe. cbn [bind] in Fe. destruct (Ha i j Hij) as (x' & Ex' & Gx & Vx). destruct (Hb i j Hij) as (y' & Ey' & Gy & Vy).
  assert (x' = x) by congruence. assert (y' = y) by congruence. subst x' y'. destruct (F _ _ _ Gx Gy Fe) as [Ge Ve]. split; auto. now rewrite Ve, Vx, Vy.
Qed.
Lemma scale_values a b r c A m : has_values good v a r c A -> good b -> mat_scale ops a b = Ok m ->
  has_values good v m r c (fun i j => (A i j * v b)%R).
Proof.
  intros (Va & Ra & Ca & Ha) Gb H. unfold mat_scale in H. destruct (each _ _) as [d| | | |] eqn:D; try discriminate. cbn [bind] in H.
  apply each_inv in D. destruct D as [L N]. pose proof Va as (A1 & A2 & A3 & A4 & A5 & A6).
  destruct (make_ok (m_rows a) (m_cols a) d) as [M W]; auto; [rewrite L; auto|]. rewrite M in H. injection H as <-.
  split; [exact W|]. split; auto. split; auto. intros i j Hij. rewrite <- Ra, <- Ca in *. destruct (entry_some a i j Va Hij) as (x & Ex & Nx).
  destruct (N _ _ Nx) as (e & Ne & Fe). exists e. rewrite entry_of by auto. split; auto. destruct (Ha i j Hij) as (x' & Ex' & Gx & Vx).
  assert (x' = x) by congruence. subst x'. destruct (so_mul _ _ _ SO _ _ _ Gx Gb Fe) as [Ge Ve]. split; auto. now rewrite Ve, Vx.
Qed.
End P.
