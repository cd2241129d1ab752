From Coq Require Import ZArith Znumtheory QArith Bool Lia ZifyBool.
From Verif Require Import Outcome CheckedIntModel CheckedIntSpec CheckedIntProofs
  RationalModel RationalSpec.
Open Scope Z_scope.
Open Scope outcome_scope.
Ltac Zify.zify_post_hook ::= Z.div_mod_to_equations.

Definition canon (r : rat) : Prop := canonical (num r) (den r).
Definition ratQ (r : rat) : Q := frac (num r) (den r).

Lemma gcd_pos a b : b <> 0 -> 0 < Z.gcd a b.
Proof.
  intros Hb. pose proof (Z.gcd_nonneg a b). assert (Z.gcd a b <> 0); [|lia].
  intros H0. apply Z.gcd_eq_0 in H0. tauto.
Qed.

Lemma ck_div_exact a g q : in_i64 a -> 0 < g -> in_i64 g -> a = g * q -> ck_div a g = Ok q.
Proof.
  intros Ha Hg Hgr E. assert (Z.quot a g = q) as Q by (rewrite E, Z.mul_comm, Z.quot_mul; lia).
  destruct (ck_div_spec a g Ha Hgr) as [H _]. rewrite H.
  - now rewrite Q.
  - split; [lia|]. rewrite Q. unfold_range; nia.
Qed.

(** create_pair on arguments other than INT64_MIN. *)
Lemma create_pair_ok n d : in_i64 n -> in_i64 d -> n <> INT64_MIN -> d <> INT64_MIN -> d <> 0 ->
  exists r, rat_make n d = Ok r /\ canon r /\ same_fraction n d (num r) (den r).
Proof.
  intros Hn Hd Hn' Hd' Hd0. unfold rat_make, create_pair, std_gcd.
  destruct ((n =? INT64_MIN) || (d =? INT64_MIN)) eqn:E; [lia|]. cbn [bind].
  pose proof (gcd_pos n d Hd0) as Hg.
  destruct (Z.gcd_divide_l n d) as [qn Hqn]. destruct (Z.gcd_divide_r n d) as [qd Hqd].
  set (g := Z.gcd n d) in *.
  assert (Hgr : in_i64 g).
  { assert (g <= Z.abs d) by (apply Z.divide_pos_le; [lia|]; apply Z.divide_abs_r; exists qd; exact Hqd).
    unfold_range; lia. }
  rewrite (ck_div_exact n g qn) by (assumption || lia). cbn [bind].
  rewrite (ck_div_exact d g qd) by (assumption || lia). cbn [bind].
  assert (Hcop : Z.gcd qn qd = 1).
  { assert (Hmul : Z.gcd (g * qn) (g * qd) = g * Z.gcd qn qd) by (apply Z.gcd_mul_mono_l_nonneg; lia).
    replace (g * qn) with n in Hmul by lia. replace (g * qd) with d in Hmul by lia.
    fold g in Hmul. nia. }
  assert (Hqnr : in_i64 qn /\ qn <> INT64_MIN) by (unfold_range; nia).
  assert (Hqdr : in_i64 qd /\ qd <> INT64_MIN) by (unfold_range; nia).
  destruct Hqnr as [Hqnr Hqn']. destruct Hqdr as [Hqdr Hqd'].
  destruct (Z.ltb_spec qd 0) as [Hneg|Hpos].
  - destruct (ck_neg_spec qn Hqnr) as [-> _]; [|split; [exact I|unfold_range; lia]]. cbn [bind].
    destruct (ck_neg_spec qd Hqdr) as [-> _]; [|split; [exact I|unfold_range; lia]]. cbn [bind].
    eexists; split; [reflexivity|]. unfold canon, canonical, same_fraction. cbn [num den]. split.
    + split; [lia|]. split; [rewrite Z.gcd_opp_l, Z.gcd_opp_r; exact Hcop|]. unfold_range; lia.
    + nia.
  - eexists; split; [reflexivity|]. unfold canon, canonical, same_fraction. cbn [num den]. split.
    + split; [nia|]. split; [exact Hcop|]. split; assumption.
    + nia.
Qed.

Lemma rat_make_min n d : n = INT64_MIN \/ d = INT64_MIN -> rat_make n d = UB.
Proof.
  intros H. unfold rat_make, create_pair, std_gcd.
  destruct ((n =? INT64_MIN) || (d =? INT64_MIN)) eqn:E; [reflexivity|lia].
Qed.

Lemma rat_make_0_0 : rat_make 0 0 = Dies. Proof. reflexivity. Qed.

Lemma rat_make_d0 n : in_i64 n -> n <> INT64_MIN -> n <> 0 -> rat_make n 0 = Ok (mk_rat (Z.sgn n) 0).
Proof.
  intros Hn Hm H0. unfold rat_make, create_pair, std_gcd.
  destruct ((n =? INT64_MIN) || (0 =? INT64_MIN)) eqn:E; [unfold_range; lia|]. cbn [bind].
  rewrite Z.gcd_0_r.
  rewrite (ck_div_exact n (Z.abs n) (Z.sgn n)); [|exact Hn|lia|unfold_range; lia|lia].
  cbn [bind]. rewrite (ck_div_exact 0 (Z.abs n) 0); [|unfold_range; lia|lia|unfold_range; lia|lia].
  reflexivity.
Qed.

(** Canonical fractions are unique. *)
Lemma canonical_unique n d n' d' :
  canonical n d -> canonical n' d' -> same_fraction n d n' d' -> n = n' /\ d = d'.
Proof.
  intros (Hd & Hg & _) (Hd' & Hg' & _) H. unfold same_fraction in H.
  assert (D1 : (d | d')).
  { apply Z.gauss with n; [exists n'; lia|]. rewrite Z.gcd_comm; exact Hg. }
  assert (D2 : (d' | d)).
  { apply Z.gauss with n'; [exists n; lia|]. rewrite Z.gcd_comm; exact Hg'. }
  assert (d = d') by (apply Z.divide_antisym_nonneg; lia || assumption).
  subst d'. split; [nia|reflexivity].
Qed.

Lemma rat_make_idem r : canon r -> num r <> INT64_MIN -> rat_make (num r) (den r) = Ok r.
Proof.
  intros Hc Hm. pose proof Hc as (Hd & Hg & Hn & Hdr).
  destruct (create_pair_ok (num r) (den r)) as (r' & E & Hc' & Hs); try assumption; try (unfold_range; lia).
  rewrite E. f_equal. destruct (canonical_unique _ _ _ _ Hc Hc' Hs) as [E1 E2].
  destruct r, r'; cbn in *; congruence.
Qed.

(** The value in Q of a fraction built from (n,d). *)
Lemma frac_eq n d n' d' : 0 < d -> 0 < d' -> same_fraction n d n' d' -> Qeq (frac n d) (frac n' d').
Proof.
  intros Hd Hd' H. unfold frac, Qeq; cbn [Qnum Qden]. unfold same_fraction in H.
  rewrite !Z2Pos.id by lia. lia.
Qed.

(** Full behaviour of the constructor on a positive intermediate denominator: exact when neither part is INT64_MIN. *)
Definition make_result (n d : Z) (o : outcome rat) : Prop :=
  (n <> INT64_MIN -> exists r, o = Ok r /\ canon r /\ Qeq (ratQ r) (frac n d)) /\
  (n = INT64_MIN -> o = UB).

Lemma rat_make_result n d : in_i64 n -> in_i64 d -> 0 < d -> make_result n d (rat_make n d).
Proof.
  intros Hn Hd Hd0. split; intros H.
  - destruct (create_pair_ok n d) as (r & E & Hc & Hs); try assumption; try (unfold_range; lia).
    exists r; split; [exact E|]. split; [exact Hc|]. unfold ratQ.
    apply Qeq_sym. apply frac_eq; [exact Hd0| |exact Hs]. destruct Hc; assumption.
  - apply rat_make_min. now left.
Qed.

(** Addition. *)
Definition add_n (a b : rat) := num a * den b + num b * den a.
Definition add_fits (a b : rat) : Prop :=
  in_i64 (num a * den b) /\ in_i64 (num b * den a) /\
  in_i64 (num a * den b + num b * den a) /\ in_i64 (den a * den b).

Ltac ckmul a b H :=
  destruct (ck_mul_spec a b) as [H ?]; [assumption|assumption|].

Lemma in_dec z : {in_i64 z} + {~ in_i64 z}.
Proof. destruct (in_i64b z) eqn:E; [left; now apply in_i64b_spec|right; rewrite <- in_i64b_spec; congruence]. Qed.

Lemma ck_mul_cases a b : in_i64 a -> in_i64 b ->
  (in_i64 (a * b) /\ ck_mul a b = Ok (a * b)) \/ (~ in_i64 (a * b) /\ ck_mul a b = Throws).
Proof.
  intros Ha Hb. destruct (ck_mul_spec a b Ha Hb) as [H1 H2].
  destruct (in_dec (a * b)); [left|right]; split; try assumption; [apply H1; tauto|apply H2; tauto].
Qed.
Lemma ck_add_cases a b : in_i64 a -> in_i64 b ->
  (in_i64 (a + b) /\ ck_add a b = Ok (a + b)) \/ (~ in_i64 (a + b) /\ ck_add a b = Throws).
Proof.
  intros Ha Hb. destruct (ck_add_spec a b Ha Hb) as [H1 H2].
  destruct (in_dec (a + b)); [left|right]; split; try assumption; [apply H1; tauto|apply H2; tauto].
Qed.
Lemma ck_sub_cases a b : in_i64 a -> in_i64 b ->
  (in_i64 (a - b) /\ ck_sub a b = Ok (a - b)) \/ (~ in_i64 (a - b) /\ ck_sub a b = Throws).
Proof.
  intros Ha Hb. destruct (ck_sub_spec a b Ha Hb) as [H1 H2].
  destruct (in_dec (a - b)); [left|right]; split; try assumption; [apply H1; tauto|apply H2; tauto].
Qed.

Lemma rat_add_spec a b : canon a -> canon b ->
  (add_fits a b -> make_result (add_n a b) (den a * den b) (rat_add a b)) /\
  (~ add_fits a b -> rat_add a b = Throws).
Proof.
  intros (Hda & _ & Hna & Hdar) (Hdb & _ & Hnb & Hdbr). unfold rat_add, add_fits, add_n.
  destruct (ck_mul_cases (num a) (den b)) as [[F1 ->]|[F1 ->]]; [assumption|assumption| |cbn [bind]; tauto].
  cbn [bind].
  destruct (ck_mul_cases (num b) (den a)) as [[F2 ->]|[F2 ->]]; [assumption|assumption| |cbn [bind]; tauto].
  cbn [bind].
  destruct (ck_add_cases (num a * den b) (num b * den a)) as [[F3 ->]|[F3 ->]]; [assumption|assumption| |cbn [bind]; tauto].
  cbn [bind].
  destruct (ck_mul_cases (den a) (den b)) as [[F4 ->]|[F4 ->]]; [assumption|assumption| |cbn [bind]; tauto].
  cbn [bind]. split; [|tauto]. intros _. apply rat_make_result; [assumption|assumption|nia].
Qed.

Definition sub_n (a b : rat) := num a * den b - num b * den a.
Definition sub_fits (a b : rat) : Prop :=
  in_i64 (num a * den b) /\ in_i64 (num b * den a) /\
  in_i64 (num a * den b - num b * den a) /\ in_i64 (den a * den b).

Lemma rat_sub_spec a b : canon a -> canon b ->
  (sub_fits a b -> make_result (sub_n a b) (den a * den b) (rat_sub a b)) /\
  (~ sub_fits a b -> rat_sub a b = Throws).
Proof.
  intros (Hda & _ & Hna & Hdar) (Hdb & _ & Hnb & Hdbr). unfold rat_sub, sub_fits, sub_n.
  destruct (ck_mul_cases (num a) (den b)) as [[F1 ->]|[F1 ->]]; [assumption|assumption| |cbn [bind]; tauto].
  cbn [bind].
  destruct (ck_mul_cases (num b) (den a)) as [[F2 ->]|[F2 ->]]; [assumption|assumption| |cbn [bind]; tauto].
  cbn [bind].
  destruct (ck_sub_cases (num a * den b) (num b * den a)) as [[F3 ->]|[F3 ->]]; [assumption|assumption| |cbn [bind]; tauto].
  cbn [bind].
  destruct (ck_mul_cases (den a) (den b)) as [[F4 ->]|[F4 ->]]; [assumption|assumption| |cbn [bind]; tauto].
  cbn [bind]. split; [|tauto]. intros _. apply rat_make_result; [assumption|assumption|nia].
Qed.

Definition mul_fits (a b : rat) : Prop := in_i64 (num a * num b) /\ in_i64 (den a * den b).

Lemma rat_mul_spec a b : canon a -> canon b ->
  (mul_fits a b -> make_result (num a * num b) (den a * den b) (rat_mul a b)) /\
  (~ mul_fits a b -> rat_mul a b = Throws).
Proof.
  intros (Hda & _ & Hna & Hdar) (Hdb & _ & Hnb & Hdbr). unfold rat_mul, mul_fits.
  destruct (ck_mul_cases (num a) (num b)) as [[F1 ->]|[F1 ->]]; [assumption|assumption| |cbn [bind]; tauto].
  cbn [bind].
  destruct (ck_mul_cases (den a) (den b)) as [[F2 ->]|[F2 ->]]; [assumption|assumption| |cbn [bind]; tauto].
  cbn [bind]. split; [|tauto]. intros _. apply rat_make_result; [assumption|assumption|nia].
Qed.

Definition div_fits (a b : rat) : Prop := in_i64 (num a * den b) /\ in_i64 (den a * num b).

(** Division; the constructor moves a negative sign to the numerator. *)
Lemma rat_div_spec a b : canon a -> canon b -> num b <> 0 ->
  (div_fits a b -> num a * den b <> INT64_MIN -> den a * num b <> INT64_MIN ->
     exists r, rat_div a b = Ok r /\ canon r /\ Qeq (ratQ r) (ratQ a / ratQ b)) /\
  (div_fits a b -> num a * den b = INT64_MIN \/ den a * num b = INT64_MIN -> rat_div a b = UB) /\
  (~ div_fits a b -> rat_div a b = Throws).
Proof.
  intros (Hda & _ & Hna & Hdar) (Hdb & _ & Hnb & Hdbr) Hb0. unfold rat_div, div_fits.
  destruct (ck_mul_cases (num a) (den b)) as [[F1 ->]|[F1 ->]]; [assumption|assumption| |cbn [bind]; tauto].
  cbn [bind].
  destruct (ck_mul_cases (den a) (num b)) as [[F2 ->]|[F2 ->]]; [assumption|assumption| |cbn [bind]; tauto].
  cbn [bind]. split; [|split; [|tauto]].
  - intros _ H1 H2.
    destruct (create_pair_ok (num a * den b) (den a * num b)) as (r & E & Hc & Hs); try assumption; [nia|].
    exists r; split; [exact E|]. split; [exact Hc|].
    destruct Hc as (Hdr & _). unfold same_fraction in Hs. clear E F1 F2 H1 H2.
    unfold ratQ, frac, Qdiv, Qinv, Qmult, Qeq. cbn [Qnum Qden].
    destruct (num b) as [|p|p] eqn:En; [lia| |]; cbn [Qnum Qden].
    + rewrite !Pos2Z.inj_mul, !Z2Pos.id by lia. lia.
    + rewrite !Pos2Z.inj_mul, !Z2Pos.id by lia.
      change (Z.neg (Z.to_pos (den b))) with (- Z.pos (Z.to_pos (den b))).
      rewrite Z2Pos.id by lia. change (Z.neg p) with (- Z.pos p) in *. lia.
  - intros _ H. apply rat_make_min, H.
Qed.

(** Division by zero is not rejected: the result is not a number, or the process is terminated. *)
Lemma rat_div_zero a b : canon a -> canon b -> num b = 0 ->
  (num a = 0 -> rat_div a b = Dies) /\
  (num a <> 0 -> num a <> INT64_MIN -> rat_div a b = Ok (mk_rat (Z.sgn (num a)) 0)) /\
  (num a = INT64_MIN -> rat_div a b = UB).
Proof.
  intros (Hda & _ & Hna & Hdar) (Hdb & Hgb & Hnb & Hdbr) H0.
  rewrite H0 in Hgb. rewrite Z.gcd_0_l in Hgb. assert (den b = 1) as Hb1 by lia.
  unfold rat_div. rewrite H0, Hb1, Z.mul_0_r || rewrite H0, Hb1.
  assert (ck_mul (num a) 1 = Ok (num a)) as ->.
  { destruct (ck_mul_spec (num a) 1) as [H _]; [assumption|unfold_range; lia|].
    rewrite Z.mul_1_r in H. apply H. tauto. }
  assert (ck_mul (den a) 0 = Ok 0) as ->.
  { destruct (ck_mul_spec (den a) 0) as [H _]; [assumption|unfold_range; lia|].
    rewrite Z.mul_0_r in H. apply H. unfold_range; split; [exact I|lia]. }
  cbn [bind]. split; [|split]; intros H.
  - rewrite H. reflexivity.
  - intros Hm. now apply rat_make_d0.
  - apply rat_make_min. now left.
Qed.

(** Q-level statements. *)
Lemma frac_plus a b : 0 < den a -> 0 < den b ->
  Qeq (frac (add_n a b) (den a * den b)) (ratQ a + ratQ b).
Proof.
  intros Ha Hb. unfold ratQ, frac, add_n, Qplus, Qeq; cbn [Qnum Qden].
  rewrite Pos2Z.inj_mul, !Z2Pos.id by nia. ring.
Qed.
Lemma frac_minus a b : 0 < den a -> 0 < den b ->
  Qeq (frac (sub_n a b) (den a * den b)) (ratQ a - ratQ b).
Proof.
  intros Ha Hb. unfold ratQ, frac, sub_n, Qminus, Qplus, Qopp, Qeq; cbn [Qnum Qden].
  rewrite Pos2Z.inj_mul, !Z2Pos.id by nia. ring.
Qed.
Lemma frac_mult a b : 0 < den a -> 0 < den b ->
  Qeq (frac (num a * num b) (den a * den b)) (ratQ a * ratQ b).
Proof.
  intros Ha Hb. unfold ratQ, frac, Qmult, Qeq; cbn [Qnum Qden].
  rewrite Pos2Z.inj_mul, !Z2Pos.id by nia. ring.
Qed.

(** try_convert_to_integer and normalized. *)
Lemma rem_in_range a b : in_i64 a -> 0 < b -> in_i64 b -> in_i64 (Z.rem a b) /\ Z.rem a b <> INT64_MIN.
Proof.
  intros Ha Hb Hbr. destruct (quot_trunc a b ltac:(lia)) as (_ & H & _). unfold_range; lia.
Qed.

Lemma ck_div_pos a b : in_i64 a -> 0 < b -> in_i64 b -> ck_div a b = Ok (Z.quot a b).
Proof.
  intros Ha Hb Hbr. destruct (ck_div_spec a b Ha Hbr) as [H _]. apply H.
  split; [lia|]. apply quot_in_range; [assumption|lia|lia].
Qed.
Lemma ck_rem_pos a b : in_i64 a -> 0 < b -> in_i64 b -> ck_rem a b = Ok (Z.rem a b).
Proof.
  intros Ha Hb Hbr. destruct (ck_rem_spec a b Ha Hbr) as [H _]. apply H.
  split; [lia|]. apply quot_in_range; [assumption|lia|lia].
Qed.

Lemma rat_try_int_spec r : canon r ->
  exists o, rat_try_int r = Ok o /\
    (forall z, o = Some z -> Qeq (ratQ r) (inject_Z z)) /\
    (o = None -> forall z, ~ Qeq (ratQ r) (inject_Z z)).
Proof.
  intros (Hd & Hg & Hn & Hdr). unfold rat_try_int, rat_is_integer.
  rewrite ck_rem_pos by assumption. cbn [bind noexcept].
  pose proof (Z.quot_rem' (num r) (den r)) as Hqr.
  destruct (Z.eqb_spec (Z.rem (num r) (den r)) 0) as [E|E].
  - rewrite ck_div_pos by assumption. cbn [bind]. eexists; split; [reflexivity|].
    split; [|discriminate]. intros z Hz. injection Hz as <-.
    unfold ratQ, frac, inject_Z, Qeq; cbn [Qnum Qden]. rewrite Z2Pos.id by lia. lia.
  - eexists; split; [reflexivity|]. split; [discriminate|]. intros _ z Hz.
    unfold ratQ, frac, inject_Z, Qeq in Hz; cbn [Qnum Qden] in Hz. rewrite Z2Pos.id in Hz by lia.
    apply E. apply Z.rem_divide; [lia|]. exists z. lia.
Qed.

Lemma rat_normalized_spec r : canon r ->
  exists q f, rat_normalized r = Ok (q, f) /\ q = Z.quot (num r) (den r) /\ canon f /\
    Qeq (ratQ r) (inject_Z q + ratQ f) /\ Z.abs (num f) < den f /\
    (num f = 0 \/ Z.sgn (num f) = Z.sgn (num r)).
Proof.
  intros Hc. pose proof Hc as (Hd & Hg & Hn & Hdr). unfold rat_normalized.
  rewrite ck_div_pos, ck_rem_pos by assumption. cbn [bind].
  destruct (quot_trunc (num r) (den r) ltac:(lia)) as (E & Hlt & Hs).
  destruct (rem_in_range (num r) (den r) Hn Hd Hdr) as [Hr1 Hr2].
  destruct (create_pair_ok (Z.rem (num r) (den r)) (den r)) as (f & Ef & Hcf & Hsf);
    try assumption; try (unfold_range; lia).
  rewrite Ef. cbn [bind noexcept]. exists (Z.quot (num r) (den r)), f.
  split; [reflexivity|]. split; [reflexivity|]. split; [exact Hcf|].
  destruct Hcf as (Hdf & _). unfold same_fraction in Hsf.
  set (m := Z.rem (num r) (den r)) in *. clearbody m.
  set (q := Z.quot (num r) (den r)) in *. clearbody q. split.
  - unfold ratQ, frac, inject_Z, Qplus, Qeq; cbn [Qnum Qden].
    rewrite Pos2Z.inj_mul, !Z2Pos.id by lia. rewrite E. nia.
  - split; [nia|]. destruct (Z.eq_dec (num f) 0) as [|Hne]; [now left|right].
    destruct Hs as [H0|Hs]; [nia|]. nia.
Qed.

(** Order. *)
Lemma order_by_comparison_compare a b : order_by_comparison a b = (a ?= b).
Proof.
  unfold order_by_comparison. destruct (Z.compare_spec a b).
  - subst. rewrite Z.ltb_irrefl. reflexivity.
  - destruct (Z.ltb_spec a b); [reflexivity|lia].
  - destruct (Z.ltb_spec a b); [lia|]. destruct (Z.ltb_spec b a); [reflexivity|lia].
Qed.

Definition order_fits (a b : rat) : Prop :=
  den a = den b \/ (in_i64 (num a * den b) /\ in_i64 (num b * den a)).

Lemma rat_order_spec a b : canon a -> canon b ->
  (order_fits a b -> rat_order a b = Ok (Qcompare (ratQ a) (ratQ b))) /\
  (~ order_fits a b -> rat_order a b = Dies).
Proof.
  intros (Hda & _ & Hna & Hdar) (Hdb & _ & Hnb & Hdbr). unfold rat_order, order_fits.
  unfold Qcompare, ratQ, frac. cbn [Qnum Qden]. rewrite !Z2Pos.id by lia.
  destruct (Z.eqb_spec (den a) (den b)) as [E|E].
  - split; [|tauto]. intros _. cbn [noexcept]. f_equal. rewrite order_by_comparison_compare, E.
    apply Zmult_compare_compat_r. lia.
  - destruct (ck_mul_cases (num a) (den b)) as [[F1 ->]|[F1 ->]]; [assumption|assumption| |cbn [bind noexcept]; tauto].
    cbn [bind].
    destruct (ck_mul_cases (num b) (den a)) as [[F2 ->]|[F2 ->]]; [assumption|assumption| |cbn [bind noexcept]; tauto].
    cbn [bind noexcept]. split; [|tauto]. intros _. f_equal. apply order_by_comparison_compare.
Qed.

Lemma rat_eqb_spec a b : canon a -> canon b -> (rat_eqb a b = true <-> Qeq (ratQ a) (ratQ b)).
Proof.
  intros Ha Hb. unfold rat_eqb. rewrite andb_true_iff, !Z.eqb_eq. split.
  - intros [E1 E2]. unfold ratQ. rewrite E1, E2. reflexivity.
  - intros E. apply canonical_unique; [exact Ha|exact Hb|].
    destruct Ha as (Hda & _). destruct Hb as (Hdb & _).
    unfold ratQ, frac, Qeq in E; cbn [Qnum Qden] in E. rewrite !Z2Pos.id in E by lia. exact E.
Qed.

(** mod_pi_rational. *)
Lemma canon_1 : canon (mk_rat 1 1).
Proof. unfold canon, canonical; cbn [num den]. repeat split; unfold_range; lia. Qed.

Lemma rat_make_1_1 : rat_make 1 1 = Ok (mk_rat 1 1). Proof. reflexivity. Qed.

Lemma mod_pi_rational_spec r : canon r ->
  exists r', mod_pi_rational r = Ok r' /\ canon r' /\
    - den r' < num r' <= den r' /\
    exists k, Qeq (ratQ r) (ratQ r' + inject_Z (2 * k)).
Proof.
  intros Hc. destruct (rat_normalized_spec r Hc) as (q & f & E & Eq & Hcf & Hv & Hlt & Hs).
  pose proof Hc as (Hd & _ & Hn & Hdr). pose proof Hcf as (Hdf & Hgf & Hnf & Hdfr).
  assert (Hqr : in_i64 q) by (rewrite Eq; apply quot_in_range; [assumption|lia|lia]).
  unfold mod_pi_rational. rewrite E. cbn [bind].
  rewrite ck_rem_pos; [|exact Hqr|lia|unfold_range; lia]. cbn [bind].
  destruct (quot_trunc q 2 ltac:(lia)) as (Eq2 & Hlt2 & Hs2).
  set (m := Z.rem q 2) in *. set (k := Z.quot q 2) in *. clearbody m k.
  destruct (Z.eqb_spec m 1) as [E1|E1].
  - destruct (Z.eqb_spec (num f) 0) as [Ef|Ef].
    + rewrite rat_make_1_1. eexists; split; [reflexivity|]. split; [exact canon_1|]. cbn [num den].
      split; [lia|]. exists k. rewrite Hv. unfold ratQ, frac, inject_Z, Qplus, Qeq; cbn [Qnum Qden num den].
      rewrite Ef, !Pos2Z.inj_mul, !Z2Pos.id by lia. nia.
    + rewrite rat_make_1_1. cbn [bind].
      assert (Hpos : 0 <= num f).
      { destruct Hs as [H|Hs]; [lia|].
        (* q >= 1 so r is positive *)
        destruct (quot_trunc (num r) (den r) ltac:(lia)) as (Er & Hltr & Hsr). rewrite <- Eq in Er.
        assert (1 <= q) by lia. nia. }
      destruct (rat_sub_spec f (mk_rat 1 1) Hcf canon_1) as [Hok _].
      destruct Hok as [Hok _].
      { unfold sub_fits; cbn [num den]. unfold_range; lia. }
      unfold sub_n in Hok; cbn [num den] in Hok.
      destruct Hok as (r' & Er' & Hcr' & Hvr'); [unfold_range; lia|].
      exists r'; split; [exact Er'|]. split; [exact Hcr'|].
      destruct Hcr' as (Hdr' & _).
      unfold ratQ, frac, Qeq in Hvr'; cbn [Qnum Qden] in Hvr'. rewrite !Z2Pos.id in Hvr' by lia.
      split; [nia|]. exists (k + 1). rewrite Hv.
      unfold ratQ, frac, inject_Z, Qplus, Qeq; cbn [Qnum Qden].
      rewrite !Pos2Z.inj_mul, !Z2Pos.id by lia. nia.
  - destruct (Z.eqb_spec m (-1)) as [E2|E2].
    + rewrite rat_make_1_1. cbn [bind].
      assert (Hneg : num f <= 0).
      { destruct Hs as [H|Hs]; [lia|].
        destruct (quot_trunc (num r) (den r) ltac:(lia)) as (Er & Hltr & Hsr). rewrite <- Eq in Er.
        assert (q <= -1) by lia. nia. }
      destruct (rat_add_spec (mk_rat 1 1) f canon_1 Hcf) as [Hok _].
      destruct Hok as [Hok _].
      { unfold add_fits; cbn [num den]. unfold_range; lia. }
      unfold add_n in Hok; cbn [num den] in Hok.
      destruct Hok as (r' & Er' & Hcr' & Hvr'); [unfold_range; lia|].
      exists r'; split; [exact Er'|]. split; [exact Hcr'|].
      destruct Hcr' as (Hdr' & _).
      unfold ratQ, frac, Qeq in Hvr'; cbn [Qnum Qden] in Hvr'. rewrite !Z2Pos.id in Hvr' by lia.
      split; [nia|]. exists (k - 1). rewrite Hv.
      unfold ratQ, frac, inject_Z, Qplus, Qeq; cbn [Qnum Qden].
      rewrite !Pos2Z.inj_mul, !Z2Pos.id by lia. nia.
    + exists f; split; [reflexivity|]. split; [exact Hcf|]. split; [lia|].
      exists k. rewrite Hv. unfold ratQ, frac, inject_Z, Qplus, Qeq; cbn [Qnum Qden].
      rewrite !Pos2Z.inj_mul, !Z2Pos.id by lia. nia.
Qed.

(** Remainder: the fractional part of a / b. *)
Lemma rat_rem_spec a b r : canon a -> canon b -> num b <> 0 -> rat_rem a b = Ok r ->
  canon r /\ Z.abs (num r) < den r /\
  exists k, Qeq (ratQ a / ratQ b) (inject_Z k + ratQ r) /\
            (num r = 0 \/ Qlt 0 (ratQ r * (ratQ a / ratQ b))).
Proof.
  intros Ha Hb Hb0. unfold rat_rem.
  destruct (rat_div_spec a b Ha Hb Hb0) as (H1 & H2 & H3).
  assert (Hcase : rat_div a b = Throws \/ rat_div a b = UB \/
                  exists q, rat_div a b = Ok q /\ canon q /\ Qeq (ratQ q) (ratQ a / ratQ b)).
  { destruct (in_dec (num a * den b)) as [F1|F1]; [|left; apply H3; unfold div_fits; tauto].
    destruct (in_dec (den a * num b)) as [F2|F2]; [|left; apply H3; unfold div_fits; tauto].
    destruct (Z.eq_dec (num a * den b) INT64_MIN) as [G1|G1]; [right; left; apply H2; unfold div_fits; tauto|].
    destruct (Z.eq_dec (den a * num b) INT64_MIN) as [G2|G2]; [right; left; apply H2; unfold div_fits; tauto|].
    right; right. apply H1; unfold div_fits; tauto. }
  destruct Hcase as [->|[->|(q & -> & Hcq & Hvq)]]; cbn [bind]; try discriminate.
  pose proof Hcq as (Hd & Hg & Hn & Hdr).
  rewrite ck_rem_pos by assumption. cbn [bind].
  destruct (quot_trunc (num q) (den q) ltac:(lia)) as (E & Hlt & Hs).
  destruct (rem_in_range (num q) (den q) Hn Hd Hdr) as [Hr1 Hr2].
  destruct (create_pair_ok (Z.rem (num q) (den q)) (den q)) as (f & Ef & Hcf & Hsf);
    try assumption; try (unfold_range; lia).
  rewrite Ef. intros Hr; injection Hr as <-.
  pose proof Hcf as (Hdf & _). unfold same_fraction in Hsf.
  split; [exact Hcf|].
  set (m := Z.rem (num q) (den q)) in *. set (t := Z.quot (num q) (den q)) in *. clearbody m t.
  split; [nia|]. exists t. split.
  - rewrite <- Hvq. unfold ratQ, frac, inject_Z, Qplus, Qeq; cbn [Qnum Qden].
    rewrite Pos2Z.inj_mul, !Z2Pos.id by lia. rewrite E. nia.
  - destruct (Z.eq_dec (num f) 0) as [|Hne]; [now left|right].
    rewrite <- Hvq. unfold ratQ, frac, Qmult, Qlt; cbn [Qnum Qden]. rewrite Z.mul_1_r.
    destruct Hs as [H0|Hs]; [nia|]. nia.
Qed.
