(** Soundness of power::create: numeric powers, and the rewriting of symbolic powers. *)
From Coq Require Import String List ZArith Znumtheory Reals Bool Permutation Lra Lia.
From Verif Require Import Outcome CheckedIntModel CheckedIntSpec CheckedIntProofs RationalModel RationalSpec RationalProofs
  IntUtilsModel IntUtilsSpec IntUtilsProofs IntFloatModel ExprModel ExprSpec ValProofs ExprProofs NumProofs BuildModel BuildProofs.
Import ListNotations.
Open Scope R_scope.

Lemma quot_rem_R a b : (0 < b)%Z -> IZR a / IZR b = IZR (Z.quot a b) + IZR (Z.rem a b) / IZR b.
Proof.
  intros H. assert (IZR b <> 0) by (apply IZR_neq; lia).
  pose proof (Z.quot_rem' a b) as E. apply (f_equal IZR) in E. rewrite plus_IZR, mult_IZR in E.
  rewrite E. field. auto.
Qed.

Lemma rem_in a b : in_i64 a -> in_i64 b -> (0 < b)%Z -> in_i64 (Z.rem a b).
Proof.
  intros Ha Hb H. pose proof (Z.rem_bound_abs a b ltac:(lia)). unfold_range. lia.
Qed.

Lemma rat_val_sign r : canon r -> ((num r < 0)%Z <-> rat_val r < 0) /\ ((num r = 0)%Z <-> rat_val r = 0) /\ ((0 < num r)%Z <-> 0 < rat_val r).
Proof.
  intros (Hd & _). unfold rat_val. apply IZR_lt in Hd.
  assert (Hi : 0 < / IZR (den r)) by now apply Rinv_0_lt_compat. unfold Rdiv.
  assert (forall z, (z < 0)%Z <-> IZR z < 0) by (intros; split; [apply IZR_lt|apply lt_IZR]).
  assert (forall z, (0 < z)%Z <-> 0 < IZR z) by (intros; split; [apply IZR_lt|apply lt_IZR]).
  assert (forall z, (z = 0)%Z <-> IZR z = 0) by (intros; split; [intros ->; auto|apply eq_IZR]).
  rewrite H, H0, H1. repeat split; intros; nra.
Qed.

Lemma canon_nonint r : canon r -> den r <> 1%Z -> ~ is_integer_R (rat_val r).
Proof.
  intros Hc Hd [z Hz]. apply Hd. apply canon_integer; auto. unfold rat_val in Hz.
  assert (IZR (den r) <> 0) by now apply canon_den.
  assert (IZR (num r) = IZR (z * den r)).
  { rewrite mult_IZR, <- Hz. field. auto. }
  apply eq_IZR in H0. rewrite H0. apply Z.rem_mul. destruct Hc; lia.
Qed.

Lemma factorize_exponent_inv q ip f : canon q -> factorize_exponent q = Ok (ip, f) ->
  in_i64 ip /\ canon f /\ rat_val q = IZR ip + rat_val f /\ 0 <= rat_val f < 1.
Proof.
  intros Hq H. destruct (canon_in q Hq) as (Nq & Dq & Pq). unfold factorize_exponent in H.
  binv H. binv H. binv H. rewrite ck_div_pos in E by auto. injection E as <-.
  rewrite ck_rem_pos in E0 by auto. injection E0 as <-.
  apply rat_make_inv in E1; [|auto using rem_in|auto|lia]. destruct E1 as [Hc Hv].
  assert (Hsum : rat_val q = IZR (Z.quot (num q) (den q)) + rat_val x1) by (rewrite Hv; now apply quot_rem_R).
  assert (Hqi : in_i64 (Z.quot (num q) (den q))) by (apply quot_in_range; auto; lia).
  pose proof (IZR_lt _ _ Pq) as HP. pose proof (Z.rem_bound_abs (num q) (den q) ltac:(lia)) as HB.
  assert (Hb : -1 < rat_val x1 < 1).
  { rewrite Hv. assert (- IZR (den q) < IZR (Z.rem (num q) (den q)) < IZR (den q)).
    { rewrite <- opp_IZR. split; apply IZR_lt; lia. }
    split; apply Rmult_lt_reg_r with (IZR (den q)); auto; unfold Rdiv; rewrite Rmult_assoc, Rinv_l by lra; lra. }
  destruct ((0 <=? num q)%Z || (num x1 =? 0)%Z) eqn:Eb.
  - injection H as <- <-. repeat split; auto; try apply Hc; try apply Hqi; try tauto.
    apply orb_prop in Eb. destruct Eb as [Eb|Eb].
    + apply Z.leb_le in Eb. rewrite Hv. apply Rmult_le_pos; [|apply Rlt_le, Rinv_0_lt_compat; lra].
      apply IZR_le. apply Z.rem_nonneg; lia.
    + apply Z.eqb_eq in Eb. apply (rat_val_sign x1 Hc) in Eb. lra.
  - apply orb_false_elim in Eb. destruct Eb as [Eb1 Eb2]. apply Z.leb_gt in Eb1. apply Z.eqb_neq in Eb2.
    binv H. binv H. binv H. injection H as <- <-.
    apply ck_sub_inv in E; [|auto|unfold_range; lia]. destruct E as [-> Hi].
    apply rat_make_inv in E0; [|unfold_range; lia|unfold_range; lia|lia]. destruct E0 as [Hc1 Hv1].
    apply rat_add_inv in E1; auto. destruct E1 as [Hc2 Hv2]. rewrite Hv1 in Hv2.
    split; auto. split; auto. rewrite minus_IZR. split; [lra|].
    assert (rat_val x1 <= 0).
    { rewrite Hv. assert (IZR (Z.rem (num q) (den q)) <= 0) by (apply IZR_le, Z.rem_nonpos; lia).
      assert (0 < / IZR (den q)) by (apply Rinv_0_lt_compat; lra). unfold Rdiv. nra. }
    assert (rat_val x1 <> 0) by (intros HH; apply (rat_val_sign x1 Hc) in HH; auto). lra.
Qed.

Lemma IZR_pow_powerRZ b n : (0 <= n)%Z -> IZR (b ^ n) = powerRZ (IZR b) n.
Proof.
  intros H. destruct n as [|p|p]; [reflexivity| |lia]. cbn [powerRZ].
  rewrite <- (positive_nat_Z p), <- pow_IZR. reflexivity.
Qed.

Section Num.
Variable s : env.
Notation ev := (eval s).
Notation wf := (ExprSpec.wf s).
Notation sound := (sound s).

Lemma sound_Rv e v x : wf e -> ev e = Rv x -> (v = Rv x \/ v = Top) -> sound e v.
Proof. intros H1 H2 [->| ->]; split; auto; rewrite H2; cbn; auto. Qed.

Lemma pow_rat_int_spec b n e : canon b -> in_i64 n -> pow_rat_int b n = Ok e ->
  sound e (vpow (Rv (rat_val b)) (Rv (IZR n))).
Proof.
  intros Hb Hn H. destruct (canon_in b Hb) as (Nb & Db & Pb). destruct (rat_val_sign b Hb) as (_ & S0 & _).
  unfold pow_rat_int in H. destruct ((num b =? 0)%Z && (n <? 0)%Z) eqn:E1; [|destruct ((num b =? 0)%Z && (n =? 0)%Z) eqn:E2].
  - injection H as <-. split; [exact Logic.I|]. apply andb_prop in E1. destruct E1 as [E1 E2]. apply Z.eqb_eq in E1. apply Z.ltb_lt in E2.
    apply S0 in E1. rewrite E1, vpow_zero_top; [auto|apply IZR_le; lia].
  - injection H as <-. split; [exact Logic.I|]. apply andb_prop in E2. destruct E2 as [E2 E3]. apply Z.eqb_eq in E2. apply Z.eqb_eq in E3.
    apply S0 in E2. rewrite E2, vpow_zero_top; [auto|apply IZR_le; lia].
  - binv H. binv H. binv H. binv H.
    apply ck_abs_inv in E; auto. destruct E as [-> Ha].
    apply integer_power_inv in E0; auto. destruct E0 as (-> & Hp & _).
    apply integer_power_inv in E3; auto. destruct E3 as (-> & Hq & _).
    assert (Hdq : (den b ^ Z.abs n <> 0)%Z) by (apply Z.pow_nonzero; lia).
    assert (Hd : IZR (den b) <> 0) by (apply IZR_neq; lia).
    destruct (Z.eq_dec (num b) 0) as [Hz|Hz].
    + assert (0 < n)%Z by (rewrite Hz in *; cbn in E1, E2; lia).
      rewrite (proj2 (Z.leb_le 0 n)) in E4 by lia.
      apply rat_make_inv in E4; auto. destruct E4 as [Hc Hv].
      apply of_rat_inv in H; auto. destruct H as (W & V & _). specialize (W s).
      eapply sound_Rv; [exact W|apply V|]. left. apply S0 in Hz as Hz'. rewrite Hz', vpow_0_int by lia. f_equal.
      rewrite Hv, Hz, Z.pow_0_l by lia. unfold Rdiv. ring.
    + assert (Hnb : rat_val b <> 0) by (rewrite <- S0; auto).
      assert (Hnp : (num b ^ Z.abs n <> 0)%Z) by (apply Z.pow_nonzero; lia).
      assert (HN : IZR (num b) <> 0) by now apply IZR_neq.
      rewrite vpow_int by auto.
      assert (Hx : canon x2 /\ rat_val x2 = powerRZ (rat_val b) n).
      { destruct (Z.leb_spec 0 n).
        - apply rat_make_inv in E4; auto. destruct E4 as [Hc Hv]. split; auto. rewrite Hv, !IZR_pow_powerRZ, Z.abs_eq by lia.
          unfold rat_val, Rdiv. rewrite powerRZ_mult, powerRZ_inv'. auto.
        - apply rat_make_inv in E4; auto. destruct E4 as [Hc Hv]. split; auto. rewrite Hv, !IZR_pow_powerRZ by lia.
          rewrite Z.abs_neq by lia. unfold rat_val, Rdiv. rewrite !powerRZ_neg', powerRZ_mult, powerRZ_inv'.
          field. split; apply powerRZ_NOR; auto. }
      destruct Hx as [Hc Hv]. apply of_rat_inv in H; auto. destruct H as (W & V & _). specialize (W s).
      eapply sound_Rv; [exact W|apply V|]. left. now rewrite Hv.
Qed.

Lemma pow_int_int_spec b n e : in_i64 b -> in_i64 n -> pow_int_int b n = Ok e ->
  sound e (vpow (Rv (IZR b)) (Rv (IZR n))).
Proof.
  intros Hb Hn H. unfold pow_int_int in H. destruct (Z.ltb_spec n 0).
  - destruct (Z.eqb_spec b 0).
    + injection H as <-. split; [exact Logic.I|]. subst. rewrite vpow_zero_top; [auto|apply IZR_le; lia].
    + binv H. binv H. apply rat_make_inv in E; auto; [|unfold_range; lia]. destruct E as [Hc Hv].
      apply ck_neg_inv in E0; auto. destruct E0 as [-> Hm]. apply pow_rat_int_spec in H; auto.
      assert (Hnb : IZR b <> 0) by now apply IZR_neq.
      rewrite Hv, vpow_int in H by (unfold Rdiv; rewrite Rmult_1_l; now apply Rinv_neq_0_compat).
      rewrite vpow_int by auto. unfold Rdiv in H. rewrite Rmult_1_l, powerRZ_neg', powerRZ_inv', Rinv_inv in H. exact H.
  - destruct (((b =? 0) && (n =? 0))%Z) eqn:E.
    + injection H as <-. split; [exact Logic.I|]. apply andb_prop in E. destruct E as [E1 E2].
      apply Z.eqb_eq in E1, E2. subst. rewrite vpow_zero_top; [auto|lra].
    + binv H. injection H as <-. apply integer_power_inv in E0; auto. destruct E0 as (-> & Hi & _).
      eapply sound_Rv; [exact Hi|reflexivity|]. left. rewrite IZR_pow_powerRZ by lia.
      destruct (Z.eq_dec b 0) as [->|Hb0].
      * assert (0 < n)%Z by (cbn in E; lia). rewrite vpow_0_int by lia. now rewrite powerRZ_zero by lia.
      * rewrite vpow_int by now apply IZR_neq. reflexivity.
Qed.

(** *** Integer base, rational exponent *)
Definition root_val (kv : Z * (Z * Z)) : R := Rpower (IZR (fst (snd kv))) (IZR (snd (snd kv)) / IZR (fst kv)).
Definition roots_val (m : root_map) : R := fold_right (fun kv acc => root_val kv * acc) 1 m.
Definition root_ok (kv : Z * (Z * Z)) : Prop :=
  (0 < fst kv)%Z /\ in_i64 (fst kv) /\ (0 < fst (snd kv))%Z /\ in_i64 (fst (snd kv)) /\ (0 < snd (snd kv))%Z /\ in_i64 (snd (snd kv)).

Lemma root_val_pos kv : 0 < root_val kv.
Proof. apply exp_pos. Qed.

Lemma root_find_set d v m old : root_find d m = Some old ->
  exists c, roots_val m = c * root_val (d, old) /\ roots_val (root_set d v m) = c * root_val (d, v).
Proof.
  induction m as [|[k w] m IH]; cbn [root_find root_set]; [discriminate|].
  destruct (Z.eqb_spec k d).
  - intros E; injection E as ->. subst. exists (roots_val m). unfold roots_val. cbn [fold_right]. split; ring.
  - intros E. destruct (IH E) as (c & H1 & H2). exists (root_val (k, w) * c). unfold roots_val in *. cbn [fold_right].
    rewrite H1, H2. split; ring.
Qed.
Lemma root_set_new d v m : root_find d m = None -> roots_val (root_set d v m) = roots_val m * root_val (d, v).
Proof.
  induction m as [|[k w] m IH]; cbn [root_find root_set]; [intros; unfold roots_val; cbn [fold_right]; ring|].
  destruct (Z.eqb_spec k d); [discriminate|]. intros E. unfold roots_val in *. cbn [fold_right]. rewrite (IH E). ring.
Qed.
Lemma root_find_ok (P : Z * (Z * Z) -> Prop) d m old : Forall P m -> root_find d m = Some old -> P (d, old).
Proof.
  induction m as [|[k w] m IH]; cbn; [discriminate|]. intros H. inversion H; subst.
  destruct (Z.eqb_spec k d); [intros E; injection E as ->; subst; auto|auto].
Qed.
Lemma root_set_ok (P : Z * (Z * Z) -> Prop) d v m : Forall P m -> P (d, v) -> Forall P (root_set d v m).
Proof.
  induction m as [|[k w] m IH]; cbn; intros H Hv; [auto|]. inversion H; subst.
  destruct (Z.eqb_spec k d); constructor; auto.
Qed.

Lemma Rpower_Z b n x : (0 < b)%Z -> (0 <= n)%Z -> Rpower (IZR (b ^ n)) x = Rpower (IZR b) (IZR n * x).
Proof.
  intros Hb Hn. rewrite IZR_pow_powerRZ by auto. rewrite <- Rpower_IZR by (now apply IZR_lt). now rewrite Rpower_mult.
Qed.

Lemma root_step_spec q rc m f rc' m' : canon q -> canon rc -> 0 < rat_val rc -> Forall root_ok m ->
  (1 < fst f)%Z -> in_i64 (fst f) -> (1 <= snd f)%Z -> in_i64 (snd f) ->
  root_step q (rc, m) f = Ok (rc', m') ->
  canon rc' /\ 0 < rat_val rc' /\ Forall root_ok m' /\
  rat_val rc' * roots_val m' = rat_val rc * roots_val m * Rpower (IZR (fst f)) (rat_val q * IZR (snd f)).
Proof.
  intros Hq Hrc Hpos Hm Hf1 Hf2 Hf3 Hf4 H. destruct f as [p e]. cbn [fst snd] in *.
  unfold root_step in H. cbn [fst snd] in H. binv H.
  apply rat_mul_inv in E; auto using rat_of_int_canon. destruct E as [Hae Vae]. rewrite rat_of_int_val in Vae.
  binv H. destruct x0 as [ip fr]. apply factorize_exponent_inv in E; auto. destruct E as (Hip & Hfr & Hsum & Hfrac).
  binv H. destruct (negb _) in H; [discriminate|]. binv H.
  assert (Hpp : 0 < IZR p) by (apply IZR_lt; lia).
  assert (Hrc' : canon x1 /\ rat_val x1 = rat_val rc * Rpower (IZR p) (IZR ip)).
  { rewrite Rpower_IZR by auto. destruct (Z.leb_spec 0 ip).
    - binv E0. binv E0. apply integer_power_inv in E1; auto. destruct E1 as (-> & Hi & _).
      apply rat_make_inv in E2; auto; [|unfold_range; lia|lia]. destruct E2 as [Hc Hv].
      apply rat_mul_inv in E0; auto. destruct E0 as [Hc' ->]. split; auto. rewrite Hv, IZR_pow_powerRZ by auto. field.
    - binv E0. binv E0. binv E0. apply ck_neg_inv in E1; auto. destruct E1 as [-> Hn].
      apply integer_power_inv in E2; auto. destruct E2 as (-> & Hi & Hge).
      apply rat_make_inv in E3; auto; [|unfold_range; lia|apply Z.pow_nonzero; lia]. destruct E3 as [Hc Hv].
      apply rat_mul_inv in E0; auto. destruct E0 as [Hc' ->]. split; auto. rewrite Hv, IZR_pow_powerRZ by auto.
      rewrite powerRZ_neg'. field. apply powerRZ_NOR. lra. }
  destruct Hrc' as [Hc1 Hv1].
  assert (Hpos1 : 0 < rat_val x1) by (rewrite Hv1; apply Rmult_lt_0_compat; [auto|apply exp_pos]).
  assert (Hgoal : Rpower (IZR p) (rat_val q * IZR e) = Rpower (IZR p) (IZR ip) * Rpower (IZR p) (rat_val fr)).
  { rewrite <- Vae, Hsum. apply Rpower_plus. }
  destruct (rat_val_sign fr Hfr) as (_ & S0 & S1). destruct (canon_in fr Hfr) as (Nfr & Dfr & Pfr).
  destruct (Z.eqb_spec (num fr) 0) as [Hz|Hz].
  - injection H as <- <-. repeat split; auto; try apply Hc1. rewrite Hv1, Hgoal.
    apply S0 in Hz. rewrite Hz, Rpower_O by auto. ring.
  - assert (Hnum : (0 < num fr)%Z).
    { apply S1. destruct (Rle_lt_or_eq_dec _ _ (proj1 Hfrac)); auto. exfalso. apply Hz, S0. auto. }
    destruct (root_find (den fr) m) as [[b x2]|] eqn:Ef.
    + binv H. binv H. binv H. binv H. binv H. binv H. injection H as <- <-.
      assert (Hold := root_find_ok root_ok _ _ _ Hm Ef). destruct Hold as (O1 & O2 & O3 & O4 & O5 & O6). cbn [fst snd] in *.
      assert (Hg : is_gcd x2 (num fr) x3).
      { destruct (ck_gcd_spec x2 (num fr) O6 Nfr) as [G1 _]. destruct G1 as (g & G1 & G2); [unfold_range; lia|].
        rewrite G1 in E1. injection E1 as <-. auto. }
      destruct Hg as (G0 & [k1 G1] & [k2 G2] & _).
      assert (Hg0 : (0 < x3)%Z) by (destruct (Z.eq_dec x3 0) as [->|]; [rewrite Z.mul_0_r in G1|]; lia).
      assert (Hk1 : (0 < k1)%Z) by (clear -G1 O5 Hg0; nia). assert (Hk2 : (0 < k2)%Z) by (clear -G2 Hnum Hg0; nia).
      assert (Hle : (x3 <= x2 /\ k1 <= x2 /\ k2 <= num fr)%Z) by (rewrite G1 at 1 2; rewrite G2 at 1; clear -Hg0 Hk1 Hk2; nia).
      assert (Hg1 : in_i64 x3) by (unfold_range; lia).
      rewrite ck_div_pos in E2 by auto. injection E2 as <-. rewrite ck_div_pos in E4 by auto. injection E4 as <-.
      rewrite G1, Z.quot_mul in E3 by lia. rewrite G2, Z.quot_mul in E5 by lia.
      apply integer_power_inv in E3; auto; [|unfold_range; lia]. destruct E3 as (-> & I1 & _).
      apply integer_power_inv in E5; auto; [|unfold_range; lia]. destruct E5 as (-> & I2 & _).
      apply ck_mul_inv in E6; auto. destruct E6 as [-> I3].
      assert (B1 : (0 < b ^ k1)%Z) by (apply Z.pow_pos_nonneg; lia).
      assert (B2 : (0 < p ^ k2)%Z) by (apply Z.pow_pos_nonneg; lia).
      split; auto. split; auto. split.
      * apply root_set_ok; auto. unfold root_ok; cbn [fst snd]. repeat split; try lia; try apply I3; try apply Dfr; try apply Hg1.
      * destruct (root_find_set _ ((b ^ k1 * p ^ k2)%Z, x3) _ _ Ef) as (c & R1 & R2). rewrite R2, R1, Hv1, Hgoal.
        assert (HR : root_val (den fr, ((b ^ k1 * p ^ k2)%Z, x3)) = root_val (den fr, (b, x2)) * Rpower (IZR p) (rat_val fr)).
        { unfold root_val; cbn [fst snd]. rewrite mult_IZR. rewrite Rpower_mult_distr || rewrite <- Rpower_mult_distr by (apply IZR_lt; auto).
          rewrite !Rpower_Z by lia. unfold rat_val. rewrite G2, G1 at 1. rewrite !mult_IZR.
          f_equal; f_equal; unfold Rdiv; ring. }
        rewrite HR. ring.
    + injection H as <- <-. split; auto. split; auto. split.
      * apply root_set_ok; auto. unfold root_ok; cbn [fst snd]. repeat split; try lia; try apply Dfr; try apply Nfr; try apply Hf2.
      * rewrite root_set_new, Hv1, Hgoal by auto. unfold root_val at 1; cbn [fst snd]. fold (rat_val fr). ring.
Qed.

Lemma root_loop_spec q fs : canon q -> Forall (fun f => (1 < fst f)%Z /\ in_i64 (fst f) /\ (1 <= snd f)%Z /\ in_i64 (snd f)) fs ->
  forall rc m rc' m', canon rc -> 0 < rat_val rc -> Forall root_ok m ->
  efold (root_step q) fs (rc, m) = Ok (rc', m') ->
  canon rc' /\ 0 < rat_val rc' /\ Forall root_ok m' /\
  rat_val rc' * roots_val m' = rat_val rc * roots_val m * Rpower (IZR (factors_product fs)) (rat_val q).
Proof.
  intros Hq. induction 1 as [|f fs Hf HF IH]; intros rc m rc' m' Hc Hp Hm H; apply efold_inv in H.
  - injection H as -> ->. repeat split; auto; try apply Hc. cbn. unfold Rpower. rewrite ln_1, Rmult_0_r, exp_0. ring.
  - destruct H as ([rc1 m1] & E1 & E2). destruct Hf as (F1 & F2 & F3 & F4).
    destruct (root_step_spec _ _ _ _ _ _ Hq Hc Hp Hm F1 F2 F3 F4 E1) as (S1 & S2 & S3 & S4).
    destruct (IH _ _ _ _ S1 S2 S3 E2) as (T1 & T2 & T3 & T4). split; auto. split; auto. split; auto.
    rewrite T4, S4. cbn [factors_product fold_right]. rewrite mult_IZR, <- Rpower_mult_distr.
    + fold (factors_product fs). rewrite Rpower_Z by lia. rewrite (Rmult_comm (rat_val q)). ring.
    + apply IZR_lt. apply Z.pow_pos_nonneg; lia.
    + apply IZR_lt. clear -HF. induction HF as [|a l H HF IH]; cbn; [lia|]. fold (factors_product l).
      assert (0 < fst a ^ snd a)%Z by (apply Z.pow_pos_nonneg; lia). fold (factors_product l) in IH. nia.
Qed.

Lemma root_operand_spec kv e : (0 < fst kv)%Z -> in_i64 (fst kv) -> fst (snd kv) <> 0%Z -> in_i64 (fst (snd kv)) -> in_i64 (snd (snd kv)) ->
  root_operand kv = Ok e -> wf e /\ ev e = vpow (Rv (IZR (fst (snd kv)))) (Rv (IZR (snd (snd kv)) / IZR (fst kv))).
Proof.
  intros H1 H2 H3 H4 H5 H. unfold root_operand in H. binv H. binv H. injection H as <-.
  apply rat_make_inv in E; auto; [|lia]. destruct E as [Hc Hv]. apply of_rat_inv in E0; auto. destruct E0 as (W & V & _). specialize (W s).
  split; [split; auto|]. cbn [eval]. now rewrite V, Hv.
Qed.

End Num.

Section PowSound.
Variable I : impl.
Hypothesis HI : impl_ok I.
Variable s : env.
Hypothesis Henv : env_ok s.
Notation ev := (eval s).
Notation wf := (ExprSpec.wf s).
Notation sound := (sound s).
Variable r : ops.
Hypothesis Hr : spec_ops s r.

Lemma vprod_not_top l : Forall (fun v => v <> Top) l -> vprod l <> Top.
Proof.
  induction 1 as [|v l Hv Hl IH]; [discriminate|]. rewrite vprod_cons.
  destruct v, (vprod l); cbn; try congruence; vdec; congruence.
Qed.

Lemma roots_vprod m : Forall root_ok m ->
  vprod (map (fun kv => vpow (Rv (IZR (fst (snd kv)))) (Rv (IZR (snd (snd kv)) / IZR (fst kv)))) m) = Rv (roots_val m).
Proof.
  induction 1 as [|kv m (H1 & H2 & H3 & _) Hm IH]; [reflexivity|].
  cbn [map]. rewrite vprod_cons, IH, vpow_pos by (now apply IZR_lt). reflexivity.
Qed.

Lemma big_dec n : big_prime n \/ ~ big_prime n.
Proof. unfold big_prime. destruct (prime_dec n), (Z_le_dec (KMAX * KMAX) n); tauto. Qed.

Lemma factors_ok n l : (1 <= n)%Z -> in_i64 n -> compute_prime_factors n = Ok l ->
  factors_product l = n /\ Forall (fun f => (1 < fst f)%Z /\ in_i64 (fst f) /\ (1 <= snd f)%Z /\ in_i64 (snd f)) l.
Proof.
  intros Hn Hi H. destruct (compute_prime_factors_spec n Hi) as [H1 H2]; [lia|unfold_range; lia|].
  destruct (big_dec n) as [Hb|Hb]; [rewrite H2 in H by (rewrite Z.abs_eq by lia; exact Hb); discriminate|].
  destruct H1 as (l' & E & Hl); [rewrite Z.abs_eq by lia; exact Hb|]. rewrite H in E. injection E as <-.
  destruct Hl as (l' & E & Hprod & _ & HF). rewrite (proj2 (Z.ltb_ge n 0)) in E by lia. subst l'.
  split; auto. rewrite Forall_forall. intros [p e] Hin.
  pose proof (proj1 (Forall_forall _ _) HF (p, e) Hin) as [Hp He]. cbn [fst snd] in *.
  assert (Hp1 : (1 < p)%Z) by (destruct Hp; auto).
  assert (Hdiv : (p ^ e * 1 <= n)%Z).
  { apply in_split in Hin. destruct Hin as (l1 & l2 & ->). rewrite factors_product_app, factors_product_cons in Hprod.
    apply Forall_app in HF. destruct HF as [F1 F2]. apply Forall_inv_tail in F2.
    apply factors_product_pos in F1. apply factors_product_pos in F2.
    assert (HX : (0 < p ^ e)%Z) by (apply Z.pow_pos_nonneg; lia). rewrite <- Hprod.
    revert F1 F2 HX. generalize (factors_product l1), (factors_product l2), (p ^ e)%Z. clear. intros a b c Ha Hb Hc.
    assert (1 <= a * b)%Z by nia. replace (a * (c * b))%Z with (c * (a * b))%Z by ring. apply Z.mul_le_mono_nonneg_l; lia. }
  assert (e <= 62)%Z by (eapply (pow_exp_bound p e 1); try lia; unfold_range; lia).
  assert (p <= p ^ e)%Z.
  { rewrite <- (Z.pow_1_r p) at 1. apply Z.pow_le_mono_r; lia. }
  unfold_range. lia.
Qed.

Lemma pow_int_rat_spec b q e : in_i64 b -> canon q -> den q <> 1%Z -> pow_int_rat I r b q = Ok e ->
  sound e (vpow (Rv (IZR b)) (Rv (rat_val q))).
Proof.
  intros Hb Hq Hd H. unfold pow_int_rat in H. destruct (den q <=? 0)%Z; [discriminate|].
  destruct (rat_val_sign q Hq) as (S1 & S2 & S3).
  destruct (Z.eqb_spec b 1) as [->|Hb1].
  { injection H as <-. eapply sound_Rv; [apply (wf_numbers s)|reflexivity|]. left. rewrite vpow_pos by lra.
    unfold Rpower. now rewrite ln_1, Rmult_0_r, exp_0. }
  destruct (Z.eqb_spec b 0) as [->|Hb0].
  { destruct (Z.eqb_spec (num q) 0) as [Hz|Hz]; [|destruct (Z.ltb_spec (num q) 0) as [Hl|Hl]].
    - injection H as <-. split; [exact Logic.I|]. apply S2 in Hz. rewrite vpow_zero_top by lra. auto.
    - injection H as <-. split; [exact Logic.I|]. apply S1 in Hl. rewrite vpow_zero_top by lra. auto.
    - injection H as <-. eapply sound_Rv; [apply (wf_numbers s)|reflexivity|]. left. apply vpow_zero. apply S3. lia. }
  binv H. apply ck_abs_inv in E; auto. destruct E as [-> Hab]. binv H.
  assert (H1ab : (1 <= Z.abs b)%Z) by lia. destruct (factors_ok _ _ H1ab Hab E) as [Fp Ff].
  binv H. apply rat_make_inv in E0; [|unfold_range; lia|unfold_range; lia|lia]. destruct E0 as [O1 O2].
  replace (1 / 1) with 1 in O2 by field.
  binv H. rename x into fs0, x0 into one0. destruct x1 as [rc m].
  apply root_loop_spec in E0; auto; [|lra].
  destruct E0 as (R1 & R2 & R3 & R4). cbn [roots_val fold_right] in R4.
  rewrite O2, !Rmult_1_l, Fp in R4.
  pose proof (proj2 HI) as HP.
  binv H. destruct x as [[rc' m'] os]. binv H. rename x into x0. binv H. rename x into x1.
  destruct (Z.ltb_spec b 0) as [Hn|Hn].
  - (* negative base: the value is a finite complex number *)
    assert (Hlt : IZR b < 0) by now apply IZR_lt.
    rewrite vpow_neg_nonint by (auto using canon_nonint).
    assert (HS : canon rc' /\ Forall (fun kv => (0 < fst kv)%Z /\ in_i64 (fst kv) /\ fst (snd kv) <> 0%Z /\ in_i64 (fst (snd kv)) /\ in_i64 (snd (snd kv))) m' /\
                 Forall wf os /\ Forall (fun v => v <> Top) (map ev os)).
    { assert (Hm0 : Forall (fun kv => (0 < fst kv)%Z /\ in_i64 (fst kv) /\ fst (snd kv) <> 0%Z /\ in_i64 (fst (snd kv)) /\ in_i64 (snd (snd kv))) m).
      { eapply Forall_impl; [|exact R3]. intros kv (K1 & K2 & K3 & K4 & K5 & K6). repeat split; auto; try apply K2; try apply K4; try apply K6; lia. }
      unfold root_sign in E0. binv E0. destruct x as [ip fr]. apply factorize_exponent_inv in E3; auto.
      destruct E3 as (I1 & I2 & I3 & I4). binv E0.
      rename x into x2. assert (Hx2 : canon x2).
      { destruct (negb (ck_is_even ip)); [|injection E3 as <-; auto].
        apply rat_mul_int_inv in E3; auto; [tauto|unfold_range; lia]. }
      assert (Hpw : forall fe, of_rat fr = Ok fe -> Forall wf [EPow (EInt (-1)) fe] /\ Forall (fun v => v <> Top) (map ev [EPow (EInt (-1)) fe])).
      { intros fe Hfe. apply of_rat_inv in Hfe; auto. destruct Hfe as (W & V & _). specialize (W s).
        split; constructor; auto; cbn [ExprSpec.wf eval].
        - split; auto. unfold_range; lia.
        - rewrite V. apply vpow_not_top. lra. }
      binv E0. destruct (rat_eqb fr x).
      - injection E0 as <- <- <-. repeat split; auto; try apply Hx2; constructor; auto; cbn; auto; discriminate.
      - destruct (negb (num fr =? 0)%Z).
        + destruct (root_find (den fr) m) as [[bb xx]|] eqn:Ef.
          * destruct (xx =? num fr)%Z.
            -- binv E0. injection E0 as <- <- <-.
               pose proof (root_find_ok _ _ _ _ Hm0 Ef) as (K1 & K2 & K3 & K4 & K5). cbn [fst snd] in *.
               apply ck_mul_inv in E5; auto; [|unfold_range; lia]. destruct E5 as [-> K6].
               split; auto. split; [|split; constructor].
               apply root_set_ok; auto. cbn [fst snd]. split; auto. split; auto. split; [lia|]. split; auto.
            -- binv E0. injection E0 as <- <- <-. split; auto.
          * binv E0. injection E0 as <- <- <-. split; auto.
        + injection E0 as <- <- <-. repeat split; auto; try apply Hx2; constructor. }
    destruct HS as (T1 & T2 & T3 & T4).
    assert (HR : Forall wf x0 /\ Forall (fun v => v <> Top) (map ev x0)).
    { apply emap_inv in E1. assert (HT := Permutation_Forall (Permutation_sym (HP m')) T2). clear -E1 HT.
      induction E1 as [|kv e l l' He HF IH]; [split; constructor|]. inversion HT; subst. destruct (IH H2).
      destruct H1 as (K1 & K2 & K3 & K4 & K5). destruct (root_operand_spec s kv e K1 K2 K3 K4 K5 He) as [W V].
      split; constructor; auto. rewrite V. apply vpow_not_top. now apply IZR_neq. }
    destruct HR as [R5 R6].
    assert (HC : Forall wf x1 /\ Forall (fun v => v <> Top) (map ev x1)).
    { destruct ((num rc' =? 1)%Z && (den rc' =? 1)%Z); [injection E2 as <-; split; constructor|].
      binv E2. injection E2 as <-. apply of_rat_inv in E3; auto. destruct E3 as (W & V & _). specialize (W s). split; constructor; auto. cbn. rewrite V. discriminate. }
    destruct HC as [C1 C2].
    apply (s_mul s r Hr) in H; [|apply Forall_app; split; auto; apply Forall_app; auto].
    destruct H as [W V]. split; auto. intros HX. rewrite HX in V. apply refines_Top_l in V. revert V.
    apply vprod_not_top. rewrite !map_app. apply Forall_app; split; auto. apply Forall_app; auto.
  - injection E0 as <- <- <-. rewrite Z.abs_eq in R4 by lia.
    rewrite vpow_pos by (apply IZR_lt; lia). rewrite <- R4.
    assert (HR : Forall wf x0 /\ vprod (map ev x0) = Rv (roots_val m)).
    { apply emap_inv in E1. assert (HT := Permutation_Forall (Permutation_sym (HP m)) R3).
      rewrite <- roots_vprod by auto. rewrite <- (vprod_perm _ _ (Permutation_map _ (HP m))). clear -E1 HT.
      induction E1 as [|kv e l l' He HF IH]; [split; constructor|]. inversion HT; subst. destruct (IH H2) as [J1 J2].
      destruct H1 as (K1 & K2 & K3 & K4 & K5 & K6). destruct (root_operand_spec s kv e K1 K2 ltac:(lia) K4 K6 He) as [W V].
      split; [constructor; auto|]. cbn [map]. now rewrite !vprod_cons, V, J2. }
    destruct HR as [R5 R6].
    assert (HC : Forall wf x1 /\ vprod (map ev x1) = Rv (rat_val rc)).
    { destruct ((num rc =? 1)%Z && (den rc =? 1)%Z) eqn:Eo.
      - injection E2 as <-. split; [constructor|]. cbn. f_equal. apply andb_prop in Eo. destruct Eo as [Eo1 Eo2].
        apply Z.eqb_eq in Eo1, Eo2. unfold rat_val. rewrite Eo1, Eo2. field.
      - binv E2. injection E2 as <-. apply of_rat_inv in E0; auto. destruct E0 as (W & V & _). specialize (W s). split; [constructor; auto|].
        cbn [map]. now rewrite vprod_one, V. }
    destruct HC as [C1 C2].
    cbn [app] in H. apply (s_mul s r Hr) in H; [|apply Forall_app; split; auto].
    destruct H as [W V]. split; auto. cbn [app] in V. rewrite map_app, vprod_app, R6, C2 in V. cbn [vmul] in V.
    rewrite Rmult_comm. exact V.
Qed.

Lemma pow_numerics_spec b x e : wf b -> wf x -> pow_numerics I r b x = Ok (Some e) -> sound e (vpow (ev b) (ev x)).
Proof.
  intros Hb Hx H. destruct b, x; cbn in H; try discriminate H;
    try (injection H as <-; split; [try exact Logic.I|cbn [eval]; rewrite ?vpow_top_l, ?vpow_top_r; auto];
      unfold pow_float, pow_inf; repeat match goal with |- context [if ?c then _ else _] => destruct c end; try exact Logic.I; apply (wf_numbers s); fail).
  - binv H. injection H as <-. now apply pow_int_int_spec.
  - binv H. injection H as <-. apply pow_int_rat_spec; auto; apply Hx.
  - binv H. injection H as <-. apply pow_rat_int_spec; auto; apply Hb.
Qed.

Lemma i_pow_int_spec n e : i_pow_int I n = Ok e -> sound e Fin.
Proof.
  unfold i_pow_int. intros H. binv H. destruct x.
  - injection H as <-. split; [apply (wf_numbers s)|cbn; discriminate].
  - injection H as <-. split; [apply (wf_numbers s)|cbn; discriminate].
  - injection H as <-. split; [exact Logic.I|cbn; discriminate].
  - apply make_mul_spec with (s := s) in H.
    + destruct H as [H1 H2]. split; auto. rewrite H2. cbn. vdec; cbn; vdec; discriminate.
    + apply wf_EMul. cbn. repeat split; auto; try (unfold_range; lia). repeat constructor; cbn; unfold_range; auto; lia.
Qed.

Lemma i_pow_rat_spec q e : canon q -> den q <> 1%Z -> i_pow_rat I q = Ok e -> sound e (vpow Fin (Rv (rat_val q))).
Proof.
  intros Hq Hd H. unfold i_pow_rat in H. binv H. destruct x as [ip fr].
  apply factorize_exponent_inv in E; auto. destruct E as (I1 & I2 & I3 & I4).
  assert (Hfr : 0 < rat_val fr).
  { destruct (Rle_lt_or_eq_dec _ _ (proj1 I4)) as [|Hz]; auto. exfalso.
    apply (canon_nonint q Hq Hd). exists ip. rewrite I3, <- Hz. ring. }
  assert (Hpow : forall f fe, canon f -> 0 < rat_val f -> of_rat f = Ok fe -> sound (EPow EImag fe) Fin /\ wf fe).
  { intros f fe Hf Hp Hfe. apply of_rat_inv in Hfe; auto. destruct Hfe as (W & V & _). specialize (W s). repeat split; auto.
    cbn [eval]. rewrite V, vpow_fin by auto. discriminate. }
  assert (Hmul : forall a, sound a Fin -> is_num a = false -> make_mul I [EInt (-1); a] = Ok e -> sound e Fin).
  { intros a [A1 A2] A3 HM. apply make_mul_spec with (s := s) in HM.
    - destruct HM as [H1 H2]. split; auto. rewrite H2. cbn. rewrite vmul_1_r. cbn in A2. destruct (ev a); try congruence; vdec; discriminate.
    - apply wf_EMul. cbn. rewrite A3. repeat split; auto; try (unfold_range; lia).
      + repeat constructor. destruct a; auto; discriminate.
      + repeat constructor; auto; cbn; unfold_range; lia. }
  assert (Hone : forall x f1, rat_make 1 1 = Ok x -> rat_add fr x = Ok f1 -> canon f1 /\ 0 < rat_val f1).
  { intros x f1 X1 X2. apply rat_make_inv in X1; try (unfold_range; lia). destruct X1 as [Y1 Y2].
    apply rat_add_inv in X2; auto. destruct X2 as [Z1 Z2]. split; auto. rewrite Z2, Y2. lra. }
  assert (Hgoal : sound e Fin -> sound e (vpow Fin (Rv (rat_val q)))).
  { intros [G1 G2]. split; auto. unfold vpow. vdec; cbn; auto. }
  destruct (num fr <? 0)%Z; [discriminate|]. binv H.
  destruct x.
  - apply Hgoal. binv H. injection H as <-. eapply Hpow; eauto.
  - apply Hgoal. binv H. eapply Hmul; [eapply Hpow; eauto|reflexivity|exact H].
  - destruct (ip =? 1)%Z eqn:Eip.
    + injection H as <-. split; [split; [exact Logic.I|split; auto]|]. cbn [eval]. auto.
    + apply Hgoal. binv H. binv H. binv H. injection H as <-. destruct (Hone _ _ E0 E1). eapply Hpow; eauto.
  - apply Hgoal. binv H. binv H. binv H. destruct (Hone _ _ E0 E1). eapply Hmul; [eapply Hpow; eauto|reflexivity|exact H].
Qed.

Lemma complex_cast_val e : forall v, complex_cast I false e = Ok (Some v) -> wf e -> ev e = Fin \/ ev e = Top.
Proof.
  induction e using expr_ind'; intros w0 Hv Hw; cbn in Hv; try discriminate Hv; cbn [eval]; auto.
  - destruct l as [|a [|b [|c l]]]; try discriminate. pose proof Hw as Hw0. apply wf_EMul in Hw. destruct Hw as (_ & W2 & W3 & W4).
    binv Hv. destruct x as [c m]. destruct (as_coeff_and_mul_spec I s (EMul [a; b]) c m E Hw0) as (A1 & A2 & A3 & A4 & A5 & _).
    destruct (A5 eq_refl) as (B1 & B2 & B3). specialize (A3 s). cbn [eval] in A3. rewrite A3.
    destruct (is_i m) eqn:Em; [|discriminate]. destruct m; try discriminate. cbn [eval].
    destruct c; try discriminate; cbn [eval]; auto.
    cbn. vdec; auto. exfalso. cbn in B2. apply eq_IZR in e. subst. discriminate.
  - destruct l as [|a [|b [|c l]]]; try discriminate. apply wf_EAdd in Hw. inversion H; subst. inversion H3; subst.
    inversion Hw; subst. inversion H7; subst.
    binv Hv. destruct x as [[xr xi]|]; [|discriminate]. binv Hv. destruct x as [[yr yi]|]; [|discriminate].
    cbn [map]. rewrite vsum_two. destruct (H2 _ E) as [-> | ->]; auto; destruct (H4 _ E0) as [-> | ->]; auto.
Qed.

Lemma operate_on_float_spec f e v : wf e -> operate_on_float I r f e = Ok (Some v) -> wf v /\ (ev e = Fin \/ ev e = Top).
Proof.
  intros Hw H. unfold operate_on_float in H. binv H. destruct x as [z|]; [|discriminate].
  apply complex_cast_val in E; auto. split; auto. destruct (i_cfun I f z) as [re im].
  destruct (f64_eq im f64_zero); [injection H as <-; apply of_float_wf|].
  binv H. injection H as <-. unfold of_complex in E0. binv E0.
  apply (s_mul2 s r Hr) in E1; [|apply of_float_wf|exact Logic.I]. destruct E1 as [W _].
  apply (s_add s r Hr) in E0; [apply E0|]. constructor; [apply of_float_wf|auto].
Qed.

Lemma exp_body_spec e v : wf e -> exp_body I r e = Ok v -> sound v (vfun Fexp [ev e]).
Proof.
  intros Hw H. unfold exp_body in H. destruct (is_zero e) eqn:Ez; [|destruct (is_one e) eqn:Eo].
  - injection H as <-. destruct e; try discriminate. apply Z.eqb_eq in Ez. subst. split; [apply (wf_numbers s)|]. cbn. now rewrite exp_0.
  - injection H as <-. rewrite (is_one_val s _ Eo). split; [exact Logic.I|]. reflexivity.
  - destruct (is_inf e || is_undefined e) eqn:Eu.
    + injection H as <-. split; [exact Logic.I|]. destruct e; try discriminate; cbn; auto.
    + binv H. destruct x as [v'|].
      * injection H as <-. apply operate_on_float_spec in E; auto. destruct E as [W [V|V]]; split; auto; rewrite V; cbn; auto.
      * injection H as <-. split; [cbn; auto|]. auto.
Qed.

Lemma maybe_exp_arg_spec b x e : wf b -> wf x -> maybe_exp_arg I r b x = Ok (Some e) -> sound e (vpow (ev b) (ev x)).
Proof.
  intros Hb Hx H. destruct b; try discriminate H. destruct f; try discriminate H. destruct l as [|a l]; [discriminate|].
  cbn [maybe_exp_arg] in H. destruct (_ || _) in H; [|discriminate]. binv H. binv H. injection H as <-.
  destruct Hb as [[Ha _] _]. apply (s_mul2 s r Hr) in E; auto. destruct E as [W V].
  apply exp_body_spec in E0; auto. destruct E0 as [W1 V1]. split; auto.
  eapply refines_trans; [exact V1|]. cbn [eval map].
  destruct l; [|destruct (ev a); cbn; auto]. destruct (ev a) as [y| |]; [|cbn; auto..].
  destruct (ev x) as [z| |]; [|rewrite vpow_fin_r; auto|rewrite vpow_top_r; auto].
  cbn [vmul] in V. cbn in V. rewrite V. cbn [map vfun vfun1]. rewrite vpow_pos by apply exp_pos. unfold Rpower.
  rewrite ln_exp. cbn. f_equal. f_equal. ring.
Qed.

Lemma non_negative_val e x : wf e -> is_non_negative (determine_set e) = true -> ev e = Rv x -> 0 <= x.
Proof.
  intros Hw Hn Hx. pose proof (determine_set_sound s e Henv Hw x Hx) as H.
  destruct (determine_set e); try discriminate; cbn in H; lra.
Qed.

Lemma vprod_pow_nonneg l q : l <> [] -> Forall (fun v => forall x, v = Rv x -> 0 <= x) l ->
  refines (vprod (map (fun v => vpow v q) l)) (vpow (vprod l) q) /\ (forall x, vprod l = Rv x -> 0 <= x).
Proof.
  intros Hn HF. induction HF as [|v l Hv HF IH]; [congruence|]. destruct l as [|w l].
  - cbn [map]. rewrite !vprod_one. auto.
  - destruct IH as [I1 I2]; [congruence|]. cbn [map]. rewrite vprod_cons, (vprod_cons v). split.
    + eapply refines_trans; [|apply vpow_mul_nonneg; exact Hv]. apply vmul_refines_r. exact I1.
    + intros x Hx. destruct v as [a| |], (vprod (w :: l)) as [c| |]; try discriminate; cbn in Hx.
      * injection Hx as <-. specialize (Hv a eq_refl). specialize (I2 c eq_refl). nra.
      * revert Hx. vdec; intros Hx; try discriminate. injection Hx as <-. lra.
      * revert Hx. vdec; intros Hx; try discriminate. injection Hx as <-. lra.
Qed.

Lemma maybe_distribute_spec l x e : Forall wf l -> wf x -> maybe_distribute r l x = Ok (Some e) ->
  sound e (vpow (vprod (map ev l)) (ev x)).
Proof.
  intros Hl Hx H. unfold maybe_distribute in H.
  set (p := fun t => is_non_negative (determine_set t)) in *.
  rewrite (vprod_filter ev p). fold (filter p l) in H.
  assert (F1 := Forall_filter wf p l Hl). assert (F2 := Forall_filter wf (fun t => negb (p t)) l Hl).
  assert (F3 : Forall (fun v => forall y, v = Rv y -> 0 <= y) (map ev (filter p l))).
  { rewrite Forall_forall. intros v Hv. apply in_map_iff in Hv. destruct Hv as (t & <- & Ht). rewrite Forall_forall in F1.
    pose proof (F1 t Ht). apply filter_In in Ht. intros y Hy. eapply non_negative_val; eauto. apply Ht. }
  change (filter (fun t => is_non_negative (determine_set t)) l) with (filter p l) in H.
  change (filter (fun t => negb (is_non_negative (determine_set t))) l) with (filter (fun t => negb (p t)) l) in H.
  assert (HP : forall nn ps m, nn <> [] -> Forall wf nn -> Forall (fun v => forall y, v = Rv y -> 0 <= y) (map ev nn) ->
    emap (fun t => o_pow r t x) nn = Ok ps -> o_mul r ps = Ok m -> sound m (vpow (vprod (map ev nn)) (ev x)) /\ (forall y, vprod (map ev nn) = Rv y -> 0 <= y)).
  { intros nn ps m N0 N1 N2 N3 N4.
    assert (HX : Forall wf ps /\ Forall2 refines (map ev ps) (map (fun t => vpow (ev t) (ev x)) nn)).
    { eapply emap_sound; [|exact N3]. intros a e' Hin He. rewrite Forall_forall in N1. apply (s_pow s r Hr); auto. }
    destruct HX as [X1 X2]. apply vprod_mono in X2. apply (s_mul s r Hr) in N4; auto. destruct N4 as [W V].
    destruct (vprod_pow_nonneg (map ev nn) (ev x)) as [P1 P2]; auto. { destruct nn; [congruence|discriminate]. }
    split; auto. split; auto. eapply refines_trans; [exact V|]. eapply refines_trans; [exact X2|].
    rewrite map_map in P1. exact P1. }
  destruct (filter p l) as [|n1 nn] eqn:E1; [discriminate|].
  destruct (filter (fun t => negb (p t)) l) as [|r1 rest] eqn:E2.
  - binv H. binv H. injection H as <-. cbn [map vprod fold_right]. change (fold_right vmul (Rv 1) (map ev nn)) with (vprod (map ev nn)).
    rewrite vmul_1_r. rewrite <- vprod_cons. eapply (HP (n1 :: nn)); eauto. congruence.
  - binv H. binv H. binv H. binv H. binv H. injection H as <-.
    destruct (HP (n1 :: nn) _ _ ltac:(congruence) F1 F3 E E0) as [[W1 V1] P2].
    apply (s_mul s r Hr) in E3; auto. destruct E3 as [W3 V3].
    apply (s_pow s r Hr) in E4; auto. destruct E4 as [W4 V4].
    apply (s_mul2 s r Hr) in E5; auto. destruct E5 as [W5 V5]. split; auto.
    eapply refines_trans; [exact V5|]. eapply refines_trans; [|apply vpow_mul_nonneg; exact P2].
    apply vmul_mono; auto. eapply refines_trans; [exact V4|]. apply vpow_mono; auto.
Qed.

Lemma simp_tail_spec b x e : wf b -> wf x -> simp_tail r b x = Ok (Some e) -> sound e (vpow (ev b) (ev x)).
Proof.
  intros Hb Hx H. unfold simp_tail in H.
  destruct (is_inf x) eqn:Ei; [|destruct (is_zero x) eqn:Ez; [|destruct (is_one x) eqn:Eo]].
  - injection H as <-. split; [exact Logic.I|]. destruct x; try discriminate. cbn [eval]. rewrite vpow_top_r. auto.
  - injection H as <-. split; [apply (wf_numbers s)|]. destruct x; try discriminate. apply Z.eqb_eq in Ez. subst. apply vpow_0_r.
  - injection H as <-. split; auto. rewrite (is_one_val s _ Eo), vpow_1_r. auto.
  - destruct b; try discriminate H. pose proof Hb as Hb0. apply wf_EMul in Hb0. destruct Hb0 as (L2 & _ & _ & Hl). destruct x; try discriminate H.
    + binv H. binv H. injection H as <-.
      assert (HX : Forall wf x /\ Forall2 refines (map ev x) (map (fun t => vpow (ev t) (ev (EInt z))) l)).
      { eapply emap_sound; [|exact E]. intros a e' Hin He. rewrite Forall_forall in Hl. apply (s_pow s r Hr); auto. }
      destruct HX as [X1 X2]. apply vprod_mono in X2. apply (s_mul s r Hr) in E0; auto. destruct E0 as [W V].
      split; auto. eapply refines_trans; [exact V|]. eapply refines_trans; [exact X2|]. cbn [eval].
      rewrite <- (map_map ev (fun v => vpow v (Rv (IZR z)))). apply vprod_pow_int. destruct l; cbn in L2; [lia|discriminate].
    + apply maybe_distribute_spec; auto.
Qed.

Lemma simp_exp_spec b x e : wf b -> wf x -> simp_exp I r b x = Ok (Some e) -> sound e (vpow (ev b) (ev x)).
Proof.
  intros Hb Hx H. unfold simp_exp in H. binv H. destruct x0 as [v|].
  - injection H as <-. now apply maybe_exp_arg_spec.
  - now apply simp_tail_spec.
Qed.

Lemma simp_pow_spec b x e : wf b -> wf x -> simp_pow I r b x = Ok (Some e) -> sound e (vpow (ev b) (ev x)).
Proof.
  intros Hb Hx H. destruct b; try (apply simp_exp_spec; auto; fail). cbn [simp_pow] in H. binv H.
  destruct x0; [|apply simp_exp_spec; auto]. binv H. binv H. injection H as <-.
  destruct Hb as [Hb1 Hb2]. apply (s_mul2 s r Hr) in E0; auto. destruct E0 as [W1 V1].
  apply (s_pow s r Hr) in E1; auto. destruct E1 as [W2 V2]. split; auto.
  eapply refines_trans; [exact V2|]. eapply refines_trans; [apply vpow_mono; [apply refines_refl|exact V1]|].
  cbn [eval]. unfold can_multiply_exponents in E. binv E. destruct x2.
  - destruct b2; try discriminate E0; cbn [eval].
    + cbn [vmul]. rewrite !vpow_top_r, vpow_top_l. auto.
    + apply vpow_pow_nonint. apply canon_nonint; apply Hb2.
  - destruct (is_integer_type x) eqn:Et.
    + destruct x; try discriminate. apply vpow_pow_int.
    + injection E as E. apply vpow_pow_nonneg. intros y Hy. exact (non_negative_val b1 y Hb1 E Hy).
Qed.

Lemma simp_body_spec b x e : wf b -> wf x -> simp_body I r b x = Ok (Some e) -> sound e (vpow (ev b) (ev x)).
Proof.
  intros Hb Hx H. unfold simp_body in H. binv H. destruct x0 as [v|].
  - injection H as <-. now apply pow_numerics_spec.
  - destruct ((is_one b || is_negative_one b) && is_inf x) eqn:E1.
    + injection H as <-. split; [exact Logic.I|]. apply andb_prop in E1. destruct E1 as [_ E1]. destruct x; try discriminate.
      cbn [eval]. rewrite vpow_top_r. auto.
    + unfold simp_const in H. destruct b; try (apply simp_pow_spec; auto; fail).
      * destruct c; [|apply simp_pow_spec; auto]. binv H. injection H as <-. apply exp_body_spec in E0; auto.
        destruct E0 as [W V]. split; auto. eapply refines_trans; [exact V|]. apply vpow_euler.
      * destruct x; try (apply simp_pow_spec; auto; fail).
        -- binv H. injection H as <-. apply i_pow_int_spec in E0. destruct E0 as [W V]. split; auto.
           cbn [eval]. unfold vpow. vdec; auto.
        -- binv H. injection H as <-. apply i_pow_rat_spec in E0; auto; apply Hx.
Qed.

Lemma pow_body_spec b x e : wf b -> wf x -> pow_body r b x = Ok e -> sound e (vpow (ev b) (ev x)).
Proof.
  intros Hb Hx H. unfold pow_body in H. binv H. destruct x0 as [v|].
  - injection H as <-. now apply (s_simp s r Hr).
  - injection H as <-. split; [split; auto|auto].
Qed.

Lemma spec_step : spec_ops s (step_ops I r).
Proof.
  constructor; cbn [o_add o_mul2 o_mul o_pow o_simp o_visit step_ops].
  - apply add_body_spec; auto.
  - apply mul2_body_spec; auto.
  - apply mul_body_spec; auto.
  - apply pow_body_spec.
  - apply simp_body_spec.
  - intros p e p' Hp Hw H. now apply (mul_visit_spec I s r Hr e).
Qed.
End PowSound.

Lemma spec_ops_n I s : impl_ok I -> env_ok s -> forall n, spec_ops s (ops_n I n).
Proof. intros HI Hs. induction n; [apply spec_ops_0|]. cbn [ops_n]. now apply spec_step. Qed.
