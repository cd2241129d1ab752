From Coq Require Import ZArith Znumtheory Zpow_facts Bool Lia ZifyBool List Sorted.
From Verif Require Import Outcome Loop CheckedIntModel CheckedIntSpec CheckedIntProofs
  IntUtilsModel IntUtilsSpec Pocklington.
Import ListNotations.
Open Scope Z_scope.
Open Scope outcome_scope.
Ltac Zify.zify_post_hook ::= Z.div_mod_to_equations.

(** The largest k whose square is an int64. It is congruent to 29 mod 30, so the wheel visits it. *)
Definition KMAX : Z := 3037000499.

Lemma no_small_divisor_prime n k :
  1 < n -> n < k * k -> 1 < k -> (forall d, 1 < d < k -> ~ (d | n)) -> prime n.
Proof.
  intros Hn Hk Hk1 Hd. apply prime_alt. split; [exact Hn|].
  intros d Hdn [e He]. destruct (Z_lt_le_dec d k) as [H|H].
  - apply (Hd d); [lia|]. exists e; exact He.
  - apply (Hd e); [nia|]. exists d; lia.
Qed.

Lemma least_of_min_divisor n p :
  1 < p -> (p | n) -> (forall d, 1 < d < p -> ~ (d | n)) -> is_least_prime_factor n p.
Proof.
  intros Hp Hd Hmin. split; [|split; [exact Hd|]].
  - apply prime_alt; split; [exact Hp|]. intros e He Hep.
    apply (Hmin e He). eapply Z.divide_trans; eassumption.
  - intros q Hq Hqn. destruct (Z_lt_le_dec q p) as [H|H]; [|exact H].
    exfalso. apply (Hmin q); [|exact Hqn]. destruct Hq; lia.
Qed.

Lemma mach_rem_ok n k : in_i64 n -> 1 < k -> mach_rem n k = Ok (Z.rem n k).
Proof.
  intros Hn Hk. unfold mach_rem. destruct (Z.eqb_spec k 0); [lia|].
  pose proof (proj2 (in_i64b_spec _) (quot_in_range n k Hn ltac:(lia) ltac:(lia))) as ->.
  reflexivity.
Qed.

Definition wheel_residues : list Z := [7; 11; 13; 17; 19; 23; 29; 1].

Definition coprime30 (c : Z) : Prop := c mod 2 <> 0 /\ c mod 3 <> 0 /\ c mod 5 <> 0.

Definition WInv (n : Z) (s : Z * Z) : Prop :=
  let (k, i) := s in
  0 <= i < 8 /\ 7 <= k <= KMAX + 8 /\
  k mod 30 = nth (Z.to_nat i) wheel_residues 0 /\
  (forall d, 1 < d < k -> ~ (d | n)) /\
  (forall c, 7 <= c < k -> coprime30 c -> c * c <= n).

Definition wheel_post (n : Z) (o : outcome Z) : Prop :=
  (prime n /\ KMAX * KMAX <= n /\ o = UB) \/
  (~ (prime n /\ KMAX * KMAX <= n) /\ exists p, o = Ok p /\ is_least_prime_factor n p).

Lemma wheel_gap i k : 0 <= i < 8 -> k mod 30 = nth (Z.to_nat i) wheel_residues 0 ->
  let k' := k + nth (Z.to_nat i) wheel_inc 0 in
  let i' := Z.rem (i + 1) 8 in
  0 <= i' < 8 /\ 2 <= nth (Z.to_nat i) wheel_inc 0 <= 6 /\
  k' mod 30 = nth (Z.to_nat i') wheel_residues 0 /\
  (forall d, k < d < k' -> d mod 2 = 0 \/ d mod 3 = 0 \/ d mod 5 = 0).
Proof.
  intros Hi Hk k' i'. subst k' i'.
  set (inc := nth (Z.to_nat i) wheel_inc 0).
  set (i' := Z.rem (i + 1) 8).
  set (res' := nth (Z.to_nat i') wheel_residues 0).
  set (res := nth (Z.to_nat i) wheel_residues 0) in Hk.
  assert (H : 0 <= i' < 8 /\
    ((res = 7 /\ inc = 4 /\ res' = 11) \/ (res = 11 /\ inc = 2 /\ res' = 13) \/
     (res = 13 /\ inc = 4 /\ res' = 17) \/ (res = 17 /\ inc = 2 /\ res' = 19) \/
     (res = 19 /\ inc = 4 /\ res' = 23) \/ (res = 23 /\ inc = 6 /\ res' = 29) \/
     (res = 29 /\ inc = 2 /\ res' = 1) \/ (res = 1 /\ inc = 6 /\ res' = 7))).
  { assert (i = 0 \/ i = 1 \/ i = 2 \/ i = 3 \/ i = 4 \/ i = 5 \/ i = 6 \/ i = 7) as Hc by lia.
    subst res res' inc i'. clear Hk Hi.
    repeat (destruct Hc as [->|Hc]); try subst i; (split; [vm_compute; split; congruence|]); vm_compute; tauto. }
  clearbody res res' inc i'. destruct H as [H1 H2].
  split; [exact H1|]. split; [lia|]. split; [lia|]. intros d Hd. lia.
Qed.

Lemma mod_divide_trans d q n : 0 < q -> d mod q = 0 -> (d | n) -> (q | n).
Proof.
  intros Hq Hm Hd. eapply Z.divide_trans; [|exact Hd]. apply Z.mod_divide; lia.
Qed.

Lemma wheel_loop_spec n :
  in_i64 n -> 1 < n -> ~ (2 | n) -> ~ (3 | n) -> ~ (5 | n) ->
  wheel_post n (loop (wheel_step n) (7, 0)).
Proof.
  intros Hn Hn1 H2 H3 H5.
  apply loop_rule with (Inv := WInv n) (m := fun s => KMAX + 8 - fst s); cycle 1.
  - split; [lia|]. split; [unfold KMAX; lia|]. split; [reflexivity|]. split.
    + intros d Hd Hdn.
      assert (d = 2 \/ d = 3 \/ d = 4 \/ d = 5 \/ d = 6) as Hc by lia.
      destruct Hc as [->|[->|[->|[->| ->]]]]; try contradiction.
      * apply H2. eapply mod_divide_trans; [| |exact Hdn]; [lia|reflexivity].
      * apply H2. eapply mod_divide_trans; [| |exact Hdn]; [lia|reflexivity].
    + intros; lia.
  - cbn; reflexivity.
  - intros [k i] (Hi & Hk & Hres & Hd & Hc).
    unfold wheel_step, mach_mul, mach.
    destruct (in_i64b (k * k)) eqn:Ekk; cbn [bind].
    + apply in_i64b_spec in Ekk.
      assert (HkM : k <= KMAX) by (unfold KMAX; unfold_range; nia).
      destruct (Z.leb_spec (k * k) n) as [Hle|Hgt].
      * rewrite mach_rem_ok by (assumption || lia). cbn [bind].
        destruct (Z.eqb_spec (Z.rem n k) 0) as [E|E].
        -- right.
           assert (Hdiv : (k | n)) by (apply Z.rem_divide; [lia|exact E]).
           split.
           ++ intros [Hp Hsq]. apply prime_alt in Hp as [_ Hp]. apply (Hp k); [nia|exact Hdiv].
           ++ exists k; split; [reflexivity|]. apply least_of_min_divisor; [lia|exact Hdiv|exact Hd].
        -- destruct (wheel_gap i k Hi Hres) as (Hi' & Hinc & Hres' & Hgap).
           unfold mach_add. rewrite (mach_ok (k + _)) by (unfold_range; unfold KMAX in *; lia). cbn [bind].
           rewrite (mach_ok (i + 1)) by (unfold_range; lia). cbn [bind].
           rewrite mach_rem_ok by (unfold_range; lia). cbn [bind fst].
           split; [|lia].
           split; [exact Hi'|]. split; [lia|]. split; [exact Hres'|]. split.
           ++ intros d Hdk Hdn. destruct (Z_lt_le_dec d k) as [H|H]; [apply (Hd d); [lia|exact Hdn]|].
              destruct (Z.eq_dec d k) as [->|Hne].
              ** apply E. apply Z.rem_divide; [lia|exact Hdn].
              ** destruct (Hgap d ltac:(lia)) as [G|[G|G]].
                 --- apply H2. exact (mod_divide_trans d 2 n ltac:(lia) G Hdn).
                 --- apply H3. exact (mod_divide_trans d 3 n ltac:(lia) G Hdn).
                 --- apply H5. exact (mod_divide_trans d 5 n ltac:(lia) G Hdn).
           ++ intros c Hck [G1 [G2 G3]]. destruct (Z_lt_le_dec c k) as [H|H].
              ** apply Hc; [lia|]. split; [exact G1|split; assumption].
              ** destruct (Z.eq_dec c k) as [->|Hne]; [exact Hle|].
                 exfalso. destruct (Hgap c ltac:(lia)) as [G|[G|G]]; congruence.
      * right.
        assert (Hp : prime n) by (apply (no_small_divisor_prime n k); [lia|lia|lia|exact Hd]).
        split; [intros [_ HK]; unfold KMAX in *; nia|].
        exists n; split; [reflexivity|].
        split; [exact Hp|split; [apply Z.divide_refl|]].
        intros q Hq Hqn. apply prime_div_prime in Hqn; [lia|assumption|assumption].
    + left.
      assert (Hbig : KMAX < k) by (unfold KMAX; unfold_range; nia).
      split; [|split; [|reflexivity]].
      * apply (no_small_divisor_prime n k); [lia| |lia|exact Hd]. unfold KMAX in *; unfold_range; nia.
      * apply Hc; [unfold KMAX in *; lia|]. repeat split; vm_compute; discriminate.
Qed.

Lemma rem_zero_divide n k : 1 < k -> (Z.rem n k =? 0) = true -> (k | n).
Proof. intros Hk H. apply Z.rem_divide; [lia|]. lia. Qed.
Lemma rem_nonzero_ndivide n k : 1 < k -> (Z.rem n k =? 0) = false -> ~ (k | n).
Proof. intros Hk H Hd. apply Z.rem_divide in Hd; lia. Qed.

Lemma small_not_big n p : 1 < p -> (p | n) -> p < n -> ~ (prime n /\ KMAX * KMAX <= n).
Proof. intros Hp Hd Hlt [Hpr _]. apply prime_alt in Hpr as [_ H]. apply (H p); [lia|exact Hd]. Qed.

Lemma wheel_small n p : 1 < n -> 1 < p -> p <= 5 -> (p | n) ->
  (forall d, 1 < d < p -> ~ (d | n)) -> wheel_post n (Ok p).
Proof.
  intros Hn Hp Hp5 Hd Hmin. right. split.
  - intros [Hpr Hk]. apply prime_alt in Hpr as [_ H]. apply (H p); [|exact Hd].
    unfold KMAX in Hk; lia.
  - exists p; split; [reflexivity|]. apply least_of_min_divisor; assumption.
Qed.

Lemma wheel_factorization_spec n : in_i64 n -> 1 < n -> wheel_post n (wheel_factorization n).
Proof.
  intros Hn Hn1. unfold wheel_factorization.
  rewrite mach_rem_ok by (assumption || lia). cbn [bind].
  destruct (Z.rem n 2 =? 0) eqn:E2.
  { apply wheel_small; try lia. apply rem_zero_divide; [lia|exact E2]. }
  apply rem_nonzero_ndivide in E2; [|lia].
  rewrite mach_rem_ok by (assumption || lia). cbn [bind].
  destruct (Z.rem n 3 =? 0) eqn:E3.
  { apply wheel_small; try lia. { apply rem_zero_divide; [lia|exact E3]. }
    intros d Hd. assert (d = 2) as -> by lia. exact E2. }
  apply rem_nonzero_ndivide in E3; [|lia].
  rewrite mach_rem_ok by (assumption || lia). cbn [bind].
  destruct (Z.rem n 5 =? 0) eqn:E5.
  { apply wheel_small; try lia. { apply rem_zero_divide; [lia|exact E5]. }
    intros d Hd Hdn. assert (d = 2 \/ d = 3 \/ d = 4) as [->|[->| ->]] by lia; try contradiction.
    apply E2. eapply mod_divide_trans; [| |exact Hdn]; [lia|reflexivity]. }
  apply rem_nonzero_ndivide in E5; [|lia].
  apply wheel_loop_spec; assumption.
Qed.

(** *** compute_prime_factors *)

Lemma factors_product_cons b e l : factors_product ((b, e) :: l) = b ^ e * factors_product l.
Proof. reflexivity. Qed.

Lemma factors_product_nil : factors_product [] = 1.
Proof. reflexivity. Qed.

Lemma factors_product_app l1 l2 :
  factors_product (l1 ++ l2) = factors_product l1 * factors_product l2.
Proof.
  induction l1 as [|[b e] l1 IH]; cbn [app]; [rewrite factors_product_nil; lia|].
  rewrite !factors_product_cons, IH. ring.
Qed.

Lemma factors_product_rev l : factors_product (rev l) = factors_product l.
Proof.
  induction l as [|[b e] l IH]; cbn [rev]; [reflexivity|].
  rewrite factors_product_app, IH, !factors_product_cons, factors_product_nil. ring.
Qed.

(** Invariant of the outer loop: [n0] the (positive) start value, [neg] whether -1 was pushed. *)
Definition base_list (neg : bool) : list (Z * Z) := if neg then [(-1, 1)] else [].

Definition big_prime (n : Z) : Prop := prime n /\ KMAX * KMAX <= n.

Definition FInv (n0 : Z) (neg : bool) (s : Z * list prime_factor) : Prop :=
  let (x, res) := s in
  exists l, res = l ++ base_list neg /\
  1 <= x /\ factors_product l * x = n0 /\
  Forall (fun be => prime (fst be) /\ 1 <= snd be) l /\
  StronglySorted Z.gt (map fst res) /\
  (forall q, prime q -> (q | x) -> Forall (fun be => fst be <= q) res) /\
  (big_prime n0 -> x = n0).

Definition factor_post (n0 : Z) (neg : bool) (o : outcome (list prime_factor)) : Prop :=
  (big_prime n0 /\ o = UB) \/
  (~ big_prime n0 /\ exists res, o = Ok res /\ FInv n0 neg (1, res)).

Lemma factors_product_pos l : Forall (fun be => prime (fst be) /\ 1 <= snd be) l -> 1 <= factors_product l.
Proof.
  induction l as [|[b e] l IH]; intros H; [rewrite factors_product_nil; lia|].
  inversion H as [|? ? [Hp He] Hl]; subst. cbn [fst snd] in *. specialize (IH Hl). rewrite factors_product_cons.
  assert (0 < b ^ e) by (apply Z.pow_pos_nonneg; destruct Hp; lia). nia.
Qed.

Lemma pow_exp_bound b e r : 2 <= b -> 1 <= e -> 1 <= r -> b ^ e * r <= INT64_MAX -> e <= 62.
Proof.
  intros Hb He Hr H. destruct (Z_le_gt_dec e 62) as [|Hgt]; [assumption|exfalso].
  assert (2 ^ 63 <= b ^ e).
  { transitivity (2 ^ e); [apply Z.pow_le_mono_r; lia|apply Z.pow_le_mono_l; lia]. }
  unfold_range. change (2^63) with 9223372036854775808 in *. nia.
Qed.

Lemma Forall_fst_map (P : Z -> Prop) (l : list (Z * Z)) :
  Forall (fun be => P (fst be)) l <-> Forall P (map fst l).
Proof. rewrite Forall_map. reflexivity. Qed.

Lemma factor_step_spec n0 neg : 1 <= n0 <= INT64_MAX -> forall s, FInv n0 neg s ->
  match factor_step s with
  | Ok (inl s') => FInv n0 neg s' /\ 0 <= fst s' < fst s
  | Ok (inr r) => factor_post n0 neg (Ok r)
  | Throws => factor_post n0 neg Throws
  | Dies => factor_post n0 neg Dies
  | UB => factor_post n0 neg UB
  | NoFuel => factor_post n0 neg NoFuel
  end.
Proof.
  intros Hn0 [x res] Hinv. pose proof Hinv as (l & Hres & Hx & Hprod & Hpr & Hsort & Hle & Hbig).
  pose proof (factors_product_pos l Hpr) as Hfp.
  unfold factor_step. destruct (Z.eqb_spec x 1) as [->|Hx1]; cbn [negb].
  - right. split; [|exists res; split; [reflexivity|exact Hinv]].
    intros HB. specialize (Hbig HB). destruct HB as [Hp HK]. destruct Hp; lia.
  - assert (Hxr : in_i64 x) by (unfold_range; nia).
    destruct (wheel_factorization_spec x Hxr ltac:(lia)) as [(Hp & HK & ->)|(Hnb & p & -> & Hlp)].
    + cbn [bind]. left. split; [|reflexivity].
      assert (factors_product l = 1) as E by (unfold KMAX in *; unfold_range; nia).
      rewrite E, Z.mul_1_l in Hprod. subst x. split; assumption.
    + cbn [bind]. destruct Hlp as (Hpp & Hpx & Hpmin).
      assert (Hp1 : 1 < p) by (destruct Hpp; lia).
      destruct Hpx as [y Hy].
      assert (Hy1 : 1 <= y < x) by nia.
      assert (Hdiv : ck_div x p = Ok y).
      { assert (Hpr2 : in_i64 p) by (unfold_range; nia).
        destruct (ck_div_spec x p Hxr Hpr2) as [H _]. rewrite H.
        - f_equal. rewrite Hy. apply Z.quot_mul; lia.
        - split; [lia|]. rewrite Hy, Z.quot_mul by lia. unfold_range; lia. }
      assert (Hnbig : ~ big_prime n0).
      { intros HB. apply Hnb. rewrite (Hbig HB). exact HB. }
      assert (Hqy : forall q, prime q -> (q | y) -> p <= q).
      { intros q Hq Hqy. apply Hpmin; [exact Hq|]. rewrite Hy. apply Z.divide_mul_l, Hqy. }
      (* two cases: repeat the back factor, or push a new one *)
      assert (Hcase : (exists e l', l = (p, e) :: l') \/
                      Forall (fun be => fst be < p) res).
      { pose proof (Hle p Hpp ltac:(exists y; exact Hy)) as HleP.
        destruct res as [|[b e] res']; [right; constructor|].
        destruct l as [|[b' e'] l'].
        - right. destruct neg; cbn in Hres; [|discriminate]. inversion Hres; subst.
          constructor; [cbn; lia|constructor].
        - cbn in Hres. inversion Hres; subst b' e' res'.
          inversion HleP; subst. cbn [fst] in *.
          destruct (Z.eq_dec b p) as [->|Hne]; [left; eauto|right].
          cbn [map fst] in Hsort. apply StronglySorted_inv in Hsort as [Hs1 Hs2].
          constructor; [cbn; lia|]. apply (Forall_fst_map (fun z => z < p)).
          eapply Forall_impl; [|exact Hs2]. cbn; lia. }
      destruct Hcase as [(e & l' & ->)|Hlt].
      * rewrite Hres in *. cbn [app]. rewrite Z.eqb_refl.
        pose proof (Forall_inv Hpr) as [_ He1]. pose proof (Forall_inv_tail Hpr) as Hpr'. cbn [fst snd] in *.
        pose proof (factors_product_pos l' Hpr') as Hfp'.
        rewrite factors_product_cons in Hprod.
        assert (He62 : e <= 62).
        { apply (pow_exp_bound p e (factors_product l' * x)); [lia|lia|nia|]. lia. }
        assert (ck_add e 1 = Ok (e + 1)) as ->.
        { destruct (ck_add_spec e 1) as [H _]; [unfold_range; lia|unfold_range; lia|].
          apply H. split; [exact I|unfold_range; lia]. }
        cbn [bind]. rewrite Hdiv. cbn [bind fst]. split; [|lia].
        exists ((p, e + 1) :: l'). split; [reflexivity|]. split; [lia|]. split.
        { rewrite factors_product_cons, Z.pow_add_r, Z.pow_1_r by lia. rewrite <- Hprod, Hy. ring. }
        split; [constructor; [split; [exact Hpp|cbn; lia]|exact Hpr']|].
        split; [exact Hsort|]. split; [|intros HB; contradiction].
        intros q Hq Hqy'. pose proof (Hqy q Hq Hqy').
        specialize (Hle q Hq ltac:(rewrite Hy; apply Z.divide_mul_l; exact Hqy')).
        cbn in Hle |- *. inversion Hle; subst. constructor; [exact H|assumption].
      * assert (Hpush :
          match res with
          | (b, e) :: rest => if b =? p then let* e' := ck_add e 1 in Ok ((b, e') :: rest)
                              else Ok ((p, 1) :: res)
          | [] => Ok ((p, 1) :: res)
          end = Ok ((p, 1) :: res)).
        { destruct res as [|[b e] rest]; [reflexivity|].
          inversion Hlt; subst. cbn [fst] in *. destruct (Z.eqb_spec b p); [lia|reflexivity]. }
        rewrite Hpush. cbn [bind]. rewrite Hdiv. cbn [bind fst]. split; [|lia].
        exists ((p, 1) :: l). split; [rewrite Hres; reflexivity|]. split; [lia|]. split.
        { rewrite factors_product_cons, Z.pow_1_r. rewrite <- Hprod, Hy. ring. }
        split; [constructor; [split; [exact Hpp|cbn; lia]|exact Hpr]|].
        split.
        { cbn [map fst]. constructor; [exact Hsort|]. apply (Forall_fst_map (Z.gt p)).
          eapply Forall_impl; [|exact Hlt]. cbn; lia. }
        split; [|intros HB; contradiction].
        intros q Hq Hqy'. pose proof (Hqy q Hq Hqy').
        constructor; [exact H|]. eapply Forall_impl; [|exact Hlt]. cbn; lia.
Qed.

Lemma StronglySorted_app_iff {A} (R : A -> A -> Prop) l1 l2 :
  StronglySorted R (l1 ++ l2) <->
  StronglySorted R l1 /\ StronglySorted R l2 /\ Forall (fun a => Forall (R a) l2) l1.
Proof.
  induction l1 as [|a l1 IH]; cbn.
  - split; [intros H; repeat split; [constructor|exact H|constructor]|tauto].
  - split.
    + intros H. apply StronglySorted_inv in H as [H1 H2]. apply IH in H1 as (H3 & H4 & H5).
      rewrite Forall_app in H2. destruct H2 as [H6 H7].
      repeat split; [constructor; assumption|assumption|constructor; assumption].
    + intros (H1 & H2 & H3). apply StronglySorted_inv in H1 as [H4 H5].
      inversion H3; subst. constructor; [apply IH; tauto|]. rewrite Forall_app; tauto.
Qed.

Lemma StronglySorted_rev_gt l : StronglySorted Z.gt l -> StronglySorted Z.lt (rev l).
Proof.
  induction l as [|a l IH]; intros H; [constructor|].
  apply StronglySorted_inv in H as [H1 H2]. cbn [rev]. apply StronglySorted_app_iff.
  split; [apply IH, H1|]. split; [repeat constructor|].
  apply Forall_rev. eapply Forall_impl; [|exact H2]. cbn; intros b Hb. constructor; [lia|constructor].
Qed.

Lemma compute_prime_factors_spec n : in_i64 n -> n <> 0 -> n <> INT64_MIN ->
  (~ big_prime (Z.abs n) -> exists l, compute_prime_factors n = Ok l /\ is_prime_factorization n l) /\
  (big_prime (Z.abs n) -> compute_prime_factors n = UB).
Proof.
  intros Hn Hn0 Hmin.
  assert (Habs : 1 <= Z.abs n <= INT64_MAX) by (unfold_range; lia).
  assert (Hpost : forall neg, neg = (n <? 0) -> factor_post (Z.abs n) neg (loop factor_step (Z.abs n, base_list neg))).
  { intros neg Hneg.
    apply loop_rule with (Inv := FInv (Z.abs n) neg) (m := fst).
    - apply factor_step_spec; exact Habs.
    - exists []. split; [reflexivity|]. split; [lia|]. split; [rewrite factors_product_nil; lia|]. split; [constructor|].
      split; [destruct neg; cbn; repeat constructor|]. split; [|reflexivity].
      intros q Hq _. destruct neg; cbn; [|constructor].
      constructor; [cbn; destruct Hq; lia|constructor].
    - cbn. unfold loop_fuel; unfold_range; lia. }
  specialize (Hpost _ eq_refl).
  unfold compute_prime_factors. destruct (Z.eqb_spec n 0) as [|_]; [contradiction|].
  assert (Hstart : (if n <? 0 then let* x := ck_neg n in Ok (x, [(-1, 1)]) else Ok (n, []))
                   = Ok (Z.abs n, base_list (n <? 0))).
  { destruct (n <? 0) eqn:E.
    - destruct (ck_neg_spec n Hn) as [H _]. rewrite H by (split; [exact I|unfold_range; lia]).
      cbn [bind base_list]. repeat f_equal; lia.
    - cbn. repeat f_equal; lia. }
  rewrite Hstart. cbn [bind].
  destruct Hpost as [[HB ->]|[HnB (res & -> & l & Hres & _ & Hprod & Hpr & Hsort & _)]]; cbn [bind].
  - split; [contradiction|reflexivity].
  - split; [|contradiction]. intros _. eexists; split; [reflexivity|].
    exists (rev l). subst res. rewrite rev_app_distr.
    split; [destruct (n <? 0); reflexivity|]. split.
    + rewrite factors_product_app, !factors_product_rev. rewrite Z.mul_1_r in Hprod. rewrite Hprod.
      destruct (n <? 0) eqn:E; cbn [base_list]; rewrite ?factors_product_cons, ?factors_product_nil; lia.
    + split; [|apply Forall_rev, Hpr].
      rewrite <- rev_app_distr, map_rev. apply StronglySorted_rev_gt, Hsort.
Qed.

(** *** integer_power *)

Lemma ck_mul_ok a b : in_i64 a -> in_i64 b -> in_i64 (a * b) -> ck_mul a b = Ok (a * b).
Proof. intros Ha Hb H. apply ck_mul_spec; auto. Qed.
Lemma ck_mul_throw a b : in_i64 a -> in_i64 b -> ~ in_i64 (a * b) -> ck_mul a b = Throws.
Proof. intros Ha Hb H. apply ck_mul_spec; tauto. Qed.

Lemma abs_pow_ge_1 b e : b <> 0 -> 0 <= e -> 1 <= Z.abs (b ^ e).
Proof.
  intros Hb He. rewrite Z.abs_pow. assert (0 < Z.abs b ^ e) by (apply Z.pow_pos_nonneg; lia). lia.
Qed.

(** 2^63 is not a square. *)
Lemma square_not_2_63 z : z * z <> 9223372036854775808.
Proof.
  intros H. assert (Z.abs z <= 3037000499 \/ 3037000500 <= Z.abs z) as [Hz|Hz] by lia; nia.
Qed.

Lemma square_in_range z w : in_i64 z -> in_i64 (z * z * w) -> w <> 0 -> in_i64 (z * z).
Proof.
  intros Hz Hw Hw0. pose proof (square_not_2_63 z). unfold_range. nia.
Qed.


Lemma scaled_in_range t w : 1 <= w -> in_i64 (t * w) -> in_i64 t.
Proof. unfold_range; nia. Qed.

Lemma integer_power_loop_zero e : forall r, in_i64 r -> integer_power_loop 0 r e = Ok 0.
Proof.
  induction e as [e IH|e IH|]; intros r Hr; cbn [integer_power_loop].
  - rewrite (ck_mul_ok r 0) by (unfold_range; lia). cbn [bind].
    rewrite (ck_mul_ok 0 0) by (unfold_range; lia). cbn [bind].
    apply IH. unfold_range; lia.
  - rewrite (ck_mul_ok 0 0) by (unfold_range; lia). cbn [bind]. apply IH, Hr.
  - rewrite (ck_mul_ok r 0) by (unfold_range; lia). f_equal; lia.
Qed.

Lemma pow_xO b e : b ^ Z.pos (xO e) = (b * b) ^ Z.pos e.
Proof. rewrite Pos2Z.inj_xO, Z.pow_mul_r, Z.pow_2_r by lia. reflexivity. Qed.
Lemma pow_xI b e : b ^ Z.pos (xI e) = b * (b * b) ^ Z.pos e.
Proof.
  rewrite Pos2Z.inj_xI, Z.pow_add_r, Z.pow_mul_r, Z.pow_2_r, Z.pow_1_r by lia. lia.
Qed.

Lemma pow_split b e : (b * b) ^ Z.pos e = b * b * (b * b) ^ (Z.pos e - 1).
Proof. rewrite <- Z.pow_succ_r by lia. f_equal; lia. Qed.

Lemma integer_power_loop_spec e : forall b r,
  in_i64 b -> in_i64 r -> b <> 0 -> r <> 0 ->
  exact_or_throw True (r * b ^ Z.pos e) (integer_power_loop b r e).
Proof.
  induction e as [e IH|e IH|]; intros b r Hb Hr Hb0 Hr0; cbn [integer_power_loop].
  - rewrite pow_xI.
    assert (Hw : 0 < (b * b) ^ (Z.pos e - 1)) by (apply Z.pow_pos_nonneg; nia).
    set (w := (b * b) ^ (Z.pos e - 1)) in *.
    assert (Ht : r * (b * (b * b) ^ Z.pos e) = r * b * (b * b) ^ Z.pos e) by ring.
    rewrite Ht.
    destruct (ck_mul_spec r b Hr Hb) as [O1 T1].
    destruct (ck_mul_spec b b Hb Hb) as [O2 T2].
    destruct (in_i64b (r * b)) eqn:E1.
    + apply in_i64b_spec in E1. rewrite (O1 (conj I E1)). cbn [bind].
      destruct (in_i64b (b * b)) eqn:E2.
      * apply in_i64b_spec in E2. rewrite (O2 (conj I E2)). cbn [bind].
        apply IH; try assumption; nia.
      * assert (~ in_i64 (b * b)) as NE2 by (rewrite <- in_i64b_spec; congruence).
        rewrite T2 by tauto. cbn [bind]. split; [|reflexivity].
        intros [_ H]. exfalso. apply NE2. apply (square_in_range b (r * b * w)); [exact Hb| |nia].
        rewrite pow_split in H. fold w in H. replace (b * b * (r * b * w)) with (r * b * (b * b * w)) by ring.
        exact H.
    + assert (~ in_i64 (r * b)) as NE1 by (rewrite <- in_i64b_spec; congruence).
      rewrite T1 by tauto. cbn [bind]. split; [|reflexivity].
      intros [_ H]. exfalso. apply NE1. apply (scaled_in_range _ ((b * b) ^ Z.pos e)); [|exact H].
      rewrite pow_split. fold w. nia.
  - rewrite pow_xO.
    assert (Hw : 0 < (b * b) ^ (Z.pos e - 1)) by (apply Z.pow_pos_nonneg; nia).
    set (w := (b * b) ^ (Z.pos e - 1)) in *.
    destruct (ck_mul_spec b b Hb Hb) as [O2 T2].
    destruct (in_i64b (b * b)) eqn:E2.
    + apply in_i64b_spec in E2. rewrite (O2 (conj I E2)). cbn [bind].
      apply IH; try assumption; nia.
    + assert (~ in_i64 (b * b)) as NE2 by (rewrite <- in_i64b_spec; congruence).
      rewrite T2 by tauto. cbn [bind]. split; [|reflexivity].
      intros [_ H]. exfalso. apply NE2. apply (square_in_range b (r * w)); [exact Hb| |nia].
      rewrite pow_split in H. fold w in H. replace (b * b * (r * w)) with (r * (b * b * w)) by ring.
      exact H.
  - rewrite Z.pow_1_r. apply ck_mul_spec; assumption.
Qed.

Lemma integer_power_spec b e : in_i64 b -> in_i64 e ->
  exact_or_throw (0 <= e) (b ^ e) (integer_power b e).
Proof.
  intros Hb He. unfold integer_power, ck_to_u64.
  destruct (Z.ltb_spec e 0) as [Hneg|Hpos]; cbn [bind].
  - split; [lia|reflexivity].
  - destruct e as [|p|p]; [| |lia]; cbn [Z.to_N integer_power_u].
    + split; [reflexivity|]. rewrite Z.pow_0_r. unfold_range; lia.
    + destruct (Z.eq_dec b 0) as [->|Hb0].
      * rewrite integer_power_loop_zero by (unfold_range; lia).
        rewrite Z.pow_0_l by lia. split; [reflexivity|]. unfold_range; lia.
      * pose proof (integer_power_loop_spec p b 1 Hb ltac:(unfold_range; lia) Hb0 ltac:(lia)) as [H1 H2].
        rewrite Z.mul_1_l in *. split; [intros [_ H]; apply H1; tauto|intros H; apply H2; tauto].
Qed.

(** *** a prime at which the wheel overflows *)
Lemma prime_by_wheel p : in_i64 p -> 1 < p -> wheel_factorization p = Ok p -> prime p.
Proof.
  intros Hr Hp H. destruct (wheel_factorization_spec p Hr Hp) as [(_ & _ & E)|(_ & q & E & Hq)].
  - congruence.
  - assert (q = p) as -> by congruence. apply Hq.
Qed.

Lemma prime_115837 : prime 115837.
Proof. apply prime_by_wheel; [unfold_range; lia|lia|vm_compute; reflexivity]. Qed.
Lemma prime_5650297187 : prime 5650297187.
Proof.
  apply (pocklington2_mod 5650297187 115837 48778); try (vm_compute; reflexivity); try lia.
  exact prime_115837.
Qed.
Lemma prime_9223372036854773443 : prime 9223372036854773443.
Proof.
  apply (pocklington2_mod 9223372036854773443 5650297187 1632369366); try (vm_compute; reflexivity); try lia.
  exact prime_5650297187.
Qed.

Lemma compute_prime_factors_overflows :
  exists n, in_i64 n /\ prime n /\ compute_prime_factors n = UB.
Proof.
  exists 9223372036854773443.
  assert (H : in_i64 9223372036854773443) by (unfold_range; lia).
  split; [exact H|]. split; [exact prime_9223372036854773443|].
  apply (compute_prime_factors_spec _ H); [lia|unfold_range; lia|].
  split; [exact prime_9223372036854773443|]. unfold KMAX; lia.
Qed.
